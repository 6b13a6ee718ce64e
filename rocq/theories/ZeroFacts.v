(** New variables and variables set to null have the zero value. *)
From Coq Require Import Lia.
From Verif Require Import Base Strconv Json Heap Gotypes Unmarshal SpecUnmarshal UnmFacts SpecConvert.

Lemma F2_impl {A C} (P Q : A -> C -> Prop) : (forall x y, P x y -> Q x y) -> forall l l', Forall2 P l l' -> Forall2 Q l l'.
Proof. intros H l l' F. induction F; constructor; auto. Qed.

Definition leaf (t : gty) : Prop := match t with TArray _ _ | TStruct _ _ | TNamed _ => False | _ => True end.

Lemma leaf_zero m t a : leaf t -> nth_error m a = Some (zero_cell t) -> zero_var m t a.
Proof. destruct t; intros L E; try contradiction; constructor; try exact E; rewrite E; destruct k; reflexivity. Qed.

Lemma leaf_zero_inv m t a : leaf t -> zero_var m t a -> nth_error m a = Some (zero_cell t).
Proof. intros L H. inversion H; subst; try contradiction; try assumption. Qed.

(** More variables do not matter. *)
Lemma zero_var_app t : forall m d a, zero_var m t a -> zero_var (m ++ d) t a.
Proof.
  induction t as [t Ht|t IH|k t IH|t IH|t IH|t IH|n fs IH] using gty_ind'; intros m d a H.
  - inversion H; subst; try contradiction; constructor; apply nth_error_app_l; assumption.
  - inversion H; subst. constructor. apply nth_error_app_l; assumption.
  - inversion H as [| | | | | | |l ? ? E F| | | | | | | | | | | |]; subst. constructor; [apply nth_error_app_l; exact E|]. eapply Forall_impl; [|exact F]. intros x. apply IH.
  - inversion H; subst. constructor. apply nth_error_app_l; assumption.
  - inversion H; subst. constructor. apply nth_error_app_l; assumption.
  - inversion H; subst. constructor. apply nth_error_app_l; assumption.
  - inversion H as [| | | | | | | | | | |? ? l ? E F| | | | | | | |]; subst. econstructor; [apply nth_error_app_l; exact E|]. clear H E.
    induction F as [|f b fs l H1 F IHf]; [constructor|]. inversion IH; subst. constructor; auto.
Qed.

(** Where new variables are made depends on the number of variables only. *)
Definition placed (f : mem -> mem * addr) : Prop := forall m m', length m = length m' -> exists d b, f m = (m ++ d, b) /\ f m' = (m' ++ d, b).

Lemma times_placed f n : placed f -> forall m m', length m = length m' -> exists d l, times n f m = (m ++ d, l) /\ times n f m' = (m' ++ d, l).
Proof.
  intros P. induction n as [|n IH]; intros m m' E.
  - exists [], []. rewrite !app_nil_r. split; reflexivity.
  - cbn [times]. destruct (P m m' E) as (d & b & -> & ->). destruct (IH (m ++ d) (m' ++ d)) as (d' & l & -> & ->); [rewrite !app_length; congruence|].
    exists (d ++ d'), (b :: l). rewrite !app_assoc. split; reflexivity.
Qed.

Lemma zalloc_placed t : placed (zalloc t).
Proof.
  induction t as [t Ht|t IH|k t IH|t IH|t IH|t IH|n fs IH] using gty_ind'; intros m m' E;
    try (cbn [zalloc]; rewrite E; eexists; eexists; split; reflexivity).
  - destruct t; try contradiction; cbn [zalloc]; rewrite E; eexists; eexists; split; reflexivity.
  - cbn [zalloc]. destruct (times_placed _ k IH m m' E) as (d & l & -> & ->). exists (d ++ [VArray l]), (length (m ++ d)). rewrite !app_assoc, !app_length, E. split; reflexivity.
  - cbn [zalloc]. fold zfields.
    assert (G : forall fs, Forall (fun f => placed (zalloc (snd f))) fs -> forall m m', length m = length m' -> exists d l, zfields fs m = (m ++ d, l) /\ zfields fs m' = (m' ++ d, l)).
    { clear. induction fs as [|[i t] fs IHf]; intros IH m m' E; [exists [], []; rewrite !app_nil_r; split; reflexivity|]. inversion IH as [|? ? I1 I2]; subst. cbn [snd] in I1. cbn [zfields].
      destruct (I1 m m' E) as (d & b & -> & ->). destruct (IHf I2 (m ++ d) (m' ++ d)) as (d' & l & -> & ->); [rewrite !app_length; congruence|]. exists (d ++ d'), (b :: l). rewrite !app_assoc. split; reflexivity. }
    destruct (G fs IH m m' E) as (d & l & -> & ->). exists (d ++ [VStruct l]), (length (m ++ d)). rewrite !app_assoc, !app_length, E. split; reflexivity.
Qed.

Section Zero.
Context (env : nat -> list (finfo * gty)).
Notation proper := (proper env).

Lemma times_zero f n t : (forall m, extends m (fst (f m)) /\ zero_var (fst (f m)) t (snd (f m)) /\ (length m <= snd (f m) < length (fst (f m)))%nat) ->
  forall m, extends m (fst (times n f m)) /\ Forall (zero_var (fst (times n f m)) t) (snd (times n f m)) /\ length (snd (times n f m)) = n
    /\ Forall (fun a => (length m <= a < length (fst (times n f m)))%nat) (snd (times n f m)).
Proof.
  intros Hf. induction n as [|n IH]; intros m.
  - cbn. split; [exists []; rewrite app_nil_r; reflexivity|]. repeat split; constructor.
  - cbn [times]. destruct (Hf m) as ([d1 E1] & Z1 & L1). destruct (f m) as [m1 a]. cbn [fst snd] in *. subst m1.
    destruct (IH (m ++ d1)) as ([d2 E2] & Z2 & L2 & B2). destruct (times n f (m ++ d1)) as [m2 l]. cbn [fst snd] in *. subst m2.
    split; [exists (d1 ++ d2); rewrite app_assoc; reflexivity|]. split; [constructor; [apply zero_var_app; exact Z1|exact Z2]|]. split; [cbn; congruence|].
    assert (X : forall u v : mem, length (u ++ v) = (length u + length v)%nat) by (intros; apply app_length).
    constructor; [rewrite !X in *; lia|]. eapply Forall_impl; [|exact B2]. cbn beta. intros x. rewrite !X. lia.
Qed.

Lemma zalloc_zero t : proper t -> forall m, extends m (fst (zalloc t m)) /\ zero_var (fst (zalloc t m)) t (snd (zalloc t m))
  /\ (length m <= snd (zalloc t m) < length (fst (zalloc t m)))%nat.
Proof.
  assert (L0 : forall t m, leaf t -> zalloc t m = (m ++ [zero_cell t], length m) -> extends m (fst (zalloc t m)) /\ zero_var (fst (zalloc t m)) t (snd (zalloc t m)) /\ (length m <= snd (zalloc t m) < length (fst (zalloc t m)))%nat).
  { clear t. intros t m L ->. cbn [fst snd]. split; [eexists; reflexivity|]. split; [apply leaf_zero; [exact L|apply nth_error_last]|]. rewrite app_length. cbn. lia. }
  induction t as [t Ht|t IH|k t IH|t IH|t IH|t IH|n fs IH] using gty_ind'; intros Hp m; try (apply L0; [exact Logic.I|reflexivity]).
  - destruct t; try contradiction; apply L0; exact Logic.I || reflexivity.
  - cbn [SpecUnmarshal.proper] in Hp. cbn [zalloc]. destruct (times_zero (zalloc t) k t (IH Hp) m) as ([d E] & Z & L & B). destruct (times k (zalloc t) m) as [m1 l]. cbn [fst snd] in *. subst m1 k.
    split; [eexists; rewrite <- app_assoc; reflexivity|]. split.
    + constructor; [apply nth_error_last|]. eapply Forall_impl; [|exact Z]. intros x. apply zero_var_app.
    + rewrite !app_length. cbn. lia.
  - assert (Hall : forall i t, In (i, t) fs -> proper t) by (intros i t I; eapply proper_fields; eassumption). clear Hp.
    assert (G : extends m (fst (zfields fs m)) /\ Forall2 (fun f b => zero_var (fst (zfields fs m)) (snd f) b) fs (snd (zfields fs m))).
    { revert m. induction fs as [|[i t'] fs IHfs]; intros m; [split; [exists []; rewrite app_nil_r; reflexivity|constructor]|]. cbn [zfields]. fold zfields.
      inversion IH as [|? ? I1 I2]; subst. cbn [snd] in I1. destruct (I1 (Hall i t' (or_introl eq_refl)) m) as ([d1 E1] & Z1 & _). destruct (zalloc t' m) as [m1 a]. cbn [fst snd] in *. subst m1.
      destruct (IHfs I2 (fun i t I => Hall i t (or_intror I)) (m ++ d1)) as ([d2 E2] & F2). destruct (zfields fs (m ++ d1)) as [m2 l]. cbn [fst snd] in *. subst m2.
      split; [exists (d1 ++ d2); rewrite app_assoc; reflexivity|]. constructor; [cbn [snd]; apply zero_var_app; exact Z1|exact F2]. }
    cbn [zalloc]. fold zfields. destruct (zfields fs m) as [m1 l]. cbn [fst snd] in *. destruct G as [[d ->] F].
    split; [eexists; rewrite <- app_assoc; reflexivity|]. split; [|rewrite !app_length; cbn; lia].
    econstructor; [apply nth_error_last|]. eapply F2_impl; [|exact F]. cbn beta. intros f b. apply zero_var_app.
Qed.

(** ** Setting to zero *)

(** Some variables without parts were set to zero. *)
Definition zeroing (T : list vty) (m m' : mem) : Prop := forall x,
  nth_error m' x = nth_error m x \/ exists t, leaf t /\ nth_error T x = Some (Var t) /\ nth_error m' x = Some (zero_cell t).

Lemma zeroing_refl T m : zeroing T m m. Proof. intros x. left. reflexivity. Qed.
Lemma zeroing_trans T m1 m2 m3 : zeroing T m1 m2 -> zeroing T m2 m3 -> zeroing T m1 m3.
Proof. intros A B x. destruct (B x) as [E|E]; [|right; exact E]. rewrite E. apply A. Qed.

Notation mok := (mok env (fun _ _ => False)).
Lemma mok_of T m : mem_ok env T m -> mok T m. Proof. intros H. split; [exact H|intros x l []]. Qed.

Lemma zeroing_keeps T t : forall m m' a, mok T m -> nth_error T a = Some (Var t) -> zeroing T m m' -> zero_var m t a -> zero_var m' t a.
Proof.
  assert (L0 : forall t m m' a, leaf t -> nth_error T a = Some (Var t) -> zeroing T m m' -> zero_var m t a -> zero_var m' t a).
  { clear t. intros t m m' a L E Z H. apply leaf_zero; [exact L|]. destruct (Z a) as [E'|(t' & _ & E1 & E2)]; [rewrite E'; apply leaf_zero_inv; assumption|]. rewrite E1 in E. injection E as ->. exact E2. }
  induction t as [t Ht|t IH|k t IH|t IH|t IH|t IH|n fs IH] using gty_ind'; intros m m' a M E Z H; try (eapply L0; [exact Logic.I|eassumption..]).
  - destruct t; try contradiction; try (eapply L0; [exact Logic.I|eassumption..]). inversion H.
  - inversion H as [| | | | | | |l ? ? El F| | | | | | | | | | | |]; subst. destruct (mok_cell _ _ _ _ _ _ M E) as (c & Ec & C). rewrite El in Ec. injection Ec as <-. inversion C as [| | | | | | | |? ? F1 Q| | | | | | | | | | | | | | | |]; subst.
    constructor.
    + destruct (Z a) as [E'|(t' & L & E1 & _)]; [rewrite E'; exact El|]. rewrite E in E1. injection E1 as <-. contradiction.
    + rewrite Forall_forall in *. intros x I. eapply IH; [exact M|apply F1; exact I|exact Z|apply F; exact I].
  - inversion H as [| | | | | | | | | | |? ? l ? El F| | | | | | | |]; subst. destruct (mok_cell _ _ _ _ _ _ M E) as (c & Ec & C). rewrite El in Ec. injection Ec as <-. inversion C as [| | | | | | | | | | | | | | | |? ? ? F1| | | | | | | |]; subst.
    econstructor.
    + destruct (Z a) as [E'|(t' & L & E1 & _)]; [rewrite E'; exact El|]. rewrite E in E1. injection E1 as <-. contradiction.
    + clear H C E El. revert l F F1. induction fs as [|f fs IHf]; intros l F F1; inversion F as [|? b ? l' Hb F']; subst; [constructor|]. inversion F1 as [|? ? ? ? Eb F1']; subst. inversion IH as [|? ? I1 I2]; subst.
      constructor; [eapply I1; eassumption|apply IHf; assumption].
Qed.

Lemma set_zero_zero T t : proper t -> forall m a, mok T m -> nth_error T a = Some (Var t) -> zeroing T m (set_zero t a m) /\ zero_var (set_zero t a m) t a.
Proof.
  assert (L0 : forall t m a, leaf t -> set_zero t a m = mwrite m a (zero_cell t) -> mok T m -> nth_error T a = Some (Var t) -> zeroing T m (set_zero t a m) /\ zero_var (set_zero t a m) t a).
  { clear t. intros t m a L -> M E. assert (La : (a < length m)%nat) by (rewrite <- (mok_length _ _ _ _ M); eapply nth_error_lt; eassumption). split.
    - intros x. destruct (Nat.eq_dec a x) as [<-|N]; [right|left; apply mwrite_other; exact N]. exists t. split; [exact L|]. split; [exact E|]. apply mwrite_same. exact La.
    - apply leaf_zero; [exact L|]. apply mwrite_same. exact La. }
  induction t as [t Ht|t IH|k t IH|t IH|t IH|t IH|n fs IH] using gty_ind'; intros Hp m a M E; try (apply L0; [exact Logic.I|reflexivity|exact M|exact E]).
  - destruct t; try contradiction; (apply L0; [exact Logic.I|reflexivity|exact M|exact E]).
  - cbn [SpecUnmarshal.proper] in Hp. cbn [set_zero]. destruct (mok_cell _ _ _ _ _ _ M E) as (c & Ec & C). rewrite Ec. inversion C as [| | | | | | | |l ? F1| | | | | | | | | | | | | | | |]; subst.
    assert (G : forall l m, mok T m -> Forall (fun a => nth_error T a = Some (Var t)) l ->
      zeroing T m (fold_left (fun m x => set_zero t x m) l m) /\ Forall (zero_var (fold_left (fun m x => set_zero t x m) l m) t) l).
    { clear m M Ec F1 l C E. induction l as [|x l IHl]; intros m M F1; [split; [apply zeroing_refl|constructor]|]. inversion F1 as [|? ? Ex F2]; subst. cbn [fold_left].
      destruct (IH Hp m x M Ex) as [Z1 Z2]. pose proof (set_zero_ok env (fun _ _ => False) t Hp T m x M Ex) as M1. destruct (IHl (set_zero t x m) M1 F2) as [Z3 Z4].
      split; [eapply zeroing_trans; eassumption|]. constructor; [|exact Z4]. eapply zeroing_keeps; eassumption. }
    destruct (G l m M F1) as [Z1 Z2]. split; [exact Z1|]. constructor; [|exact Z2].
    destruct (Z1 a) as [E'|(t' & L & E1 & _)]; [rewrite E'; exact Ec|]. rewrite E in E1. injection E1 as <-. contradiction.
  - assert (Hall : forall i t, In (i, t) fs -> proper t) by (intros i t I; eapply proper_fields; eassumption). clear Hp.
    cbn [set_zero]. destruct (mok_cell _ _ _ _ _ _ M E) as (c & Ec & C). rewrite Ec. inversion C as [| | | | | | | | | | | | | | | |l ? ? F1| | | | | | | |]; subst.
    set (go := fix go (fs : list (finfo * gty)) (l : list addr) (m : mem) : mem :=
             match fs, l with
             | (_, t') :: fs', x :: l' => go fs' l' (set_zero t' x m)
             | _, _ => m
             end).
    assert (G : forall fs l m, Forall (fun f => proper (snd f) -> forall m a, mok T m -> nth_error T a = Some (Var (snd f)) -> zeroing T m (set_zero (snd f) a m) /\ zero_var (set_zero (snd f) a m) (snd f) a) fs ->
      (forall i t, In (i, t) fs -> proper t) -> mok T m -> Forall2 (fun a f => nth_error T a = Some (Var (snd f))) l fs ->
      zeroing T m (go fs l m) /\ Forall2 (fun f b => zero_var (go fs l m) (snd f) b) fs l).
    { clear. induction fs as [|[i t] fs IHf]; intros l m IH Hall M F1; inversion F1 as [|x ? l' ? Ex F2]; subst; [split; [apply zeroing_refl|constructor]|]. cbn [go]. inversion IH as [|? ? I1 I2]; subst. cbn [snd] in *.
      assert (Pt : proper t) by (eapply Hall; left; reflexivity).
      destruct (I1 Pt m x M Ex) as [Z1 Z2]. pose proof (set_zero_ok env (fun _ _ => False) t Pt T m x M Ex) as M1. destruct (IHf l' (set_zero t x m) I2 (fun i t I => Hall i t (or_intror I)) M1 F2) as [Z3 Z4].
      split; [eapply zeroing_trans; eassumption|]. constructor; [|exact Z4]. cbn [snd]. eapply zeroing_keeps; eassumption. }
    destruct (G fs l m IH Hall M F1) as [Z1 Z2]. split; [exact Z1|]. econstructor; [|exact Z2].
    destruct (Z1 a) as [E'|(t' & L & E1 & _)]; [rewrite E'; exact Ec|]. rewrite E in E1. injection E1 as <-. contradiction.
Qed.
End Zero.
