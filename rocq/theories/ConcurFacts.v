(** Lemmas for concurrent readers. *)
From Verif Require Import Base Strconv SortedMap Json Printer Heap Concur SpecConcur.

(** The result of a client on a heap that does not change; [None]: panic. *)
Fixpoint den {A} (h : heap) (p : prog A) : option A :=
  match p with
  | Done x => Some x
  | Look a k => den h (k (option_map look (nth_error h a)))
  | Text a k => match nth_error h a with Some (CFloat f b) => den h (k (float_string f b)) | _ => None end
  end.
(** Upper bound of its steps *)
Fixpoint len {A} (h : heap) (p : prog A) : nat :=
  match p with
  | Done x => 0
  | Look a k => S (len h (k (option_map look (nth_error h a))))
  | Text a k => match nth_error h a with Some (CFloat f b) => 4 + len h (k (float_string f b)) | _ => 1 end
  end%nat.

Definition inside {A} {B} (h : heap) (a : addr) (k : bytes -> prog A) (f : prog A -> B) (d : B) : B :=
  match nth_error h a with Some (CFloat x b) => f (k (float_string x b)) | _ => d end.
Definition tden {A} (h : heap) (t : thread A) : option A :=
  match t with
  | Run p => den h p
  | Test64 a k | SetBit a k | Format a k => inside h a k (den h) None
  | Panic => None
  end.
Definition tlen {A} (h : heap) (t : thread A) : nat :=
  match t with
  | Run p => len h p
  | Test64 a k => inside h a k (fun p => 3 + len h p) 0
  | SetBit a k => inside h a k (fun p => 2 + len h p) 0
  | Format a k => inside h a k (fun p => 1 + len h p) 0
  | Panic => 0
  end%nat.
(** Invariant of a goroutine: [h] the heap at the start, [h'] now *)
Definition tinv {A} (h h' : heap) (t : thread A) : Prop :=
  match t with
  | Run _ | Panic => True
  | Test64 a k => exists f b, nth_error h a = Some (CFloat f b) /\ b <> 32
  | SetBit a k => exists f b, nth_error h a = Some (CFloat f b) /\ b <> 32 /\ b <> 64
  | Format a k => exists f b, nth_error h' a = Some (CFloat f b) /\ (b = 32 \/ b = 64)
  end.

Lemma same_refl h : same_objects h h.
Proof. split; [reflexivity|]. intros a c E. left. exact E. Qed.

Lemma same_back h h' a c : same_objects h h' -> nth_error h' a = Some c ->
  nth_error h a = Some c \/ exists f b, c = CFloat f 64 /\ b <> 32 /\ b <> 64 /\ nth_error h a = Some (CFloat f b).
Proof.
  intros [L S] E. destruct (nth_error h a) as [c0|] eqn:E0.
  - destruct (S a c0 E0) as [E1|(f & b & -> & N1 & N2 & E1)]; rewrite E1 in E; injection E as <-; [left; reflexivity|right; exists f, b; auto].
  - apply nth_error_None in E0. assert (a < length h')%nat by (apply nth_error_Some; congruence). lia.
Qed.

Lemma same_none h h' a : same_objects h h' -> nth_error h a = None -> nth_error h' a = None.
Proof. intros [L _] E. apply nth_error_None. apply nth_error_None in E. lia. Qed.

Lemma same_look h h' a : same_objects h h' -> option_map look (nth_error h' a) = option_map look (nth_error h a).
Proof.
  intros S. destruct (nth_error h a) as [c|] eqn:E; [|rewrite (same_none _ _ _ S E); reflexivity].
  destruct (proj2 S a c E) as [E1|(f & b & -> & _ & _ & E1)]; rewrite E1; reflexivity.
Qed.

(** The float at an address, at the start and now *)
Lemma same_float h h' a f b : same_objects h h' -> nth_error h' a = Some (CFloat f b) ->
  exists b0, nth_error h a = Some (CFloat f b0) /\ (b = b0 \/ b = 64 /\ b0 <> 32 /\ b0 <> 64).
Proof.
  intros S E. destruct (same_back _ _ _ _ S E) as [E0|(f0 & b0 & [= -> ->] & N1 & N2 & E0)]; [exists b; auto|exists b0; auto].
Qed.

Lemma float_string_width f b : b <> 32 -> float_string f b = format_float F64 f.
Proof. intros N. unfold float_string. destruct (Z.eqb_spec b 32); [contradiction|reflexivity]. Qed.

Lemma hwrite_get h : forall a c x, nth_error (hwrite h a c) x = if Nat.eqb x a then (match nth_error h a with Some _ => Some c | None => None end) else nth_error h x.
Proof. induction h as [|y h IH]; intros [|a] c [|x]; cbn; try reflexivity; [destruct (Nat.eqb x a); reflexivity|apply IH]. Qed.
Lemma hwrite_len h : forall a c, length (hwrite h a c) = length h.
Proof. induction h as [|y h IH]; intros [|a] c; cbn; try reflexivity. f_equal. apply IH. Qed.

Lemma tstep_inv {A} h h' (t : thread A) h2 t2 : same_objects h h' -> tinv h h' t -> tstep h' t = (h2, t2) ->
  same_objects h h2 /\ same_objects h' h2 /\ tinv h h2 t2 /\ tden h t2 = tden h t /\ (tlen h t2 < tlen h t \/ tlen h t = 0 /\ over t)%nat.
Proof.
  intros S I E. destruct t as [[x|a k|a k]|a k|a k|a k|]; cbn [tstep] in E.
  - injection E as <- <-. split; [exact S|]. split; [apply same_refl|]. split; [exact I|]. split; [reflexivity|]. right. split; [reflexivity|]. left. exists x. reflexivity.
  - injection E as <- <-. split; [exact S|]. split; [apply same_refl|]. split; [exact Logic.I|]. rewrite (same_look _ _ _ S). split; [reflexivity|]. left. cbn. lia.
  - unfold bit_at in E. destruct (nth_error h' a) as [c|] eqn:E'.
    + destruct c as [| | |f b| | | |].
      4:{ destruct (same_float _ _ _ _ _ S E') as (b0 & E0 & B). injection E as <- <-. split; [exact S|]. split; [apply same_refl|].
          cbn [tden tlen den len]. rewrite E0. destruct (Z.eqb_spec b 32) as [W|W].
          - split; [cbn; exists f, b; auto|]. cbn [tden tlen]. unfold inside. rewrite E0. split; [reflexivity|left; lia].
          - split; [cbn; exists f, b0; split; [exact E0|]; destruct B as [->|(-> & B1 & B2)]; assumption|]. cbn [tden tlen]. unfold inside. rewrite E0. split; [reflexivity|left; lia]. }
      all: injection E as <- <-; split; [exact S|]; split; [apply same_refl|]; split; [exact Logic.I|]; cbn [tden tlen den len];
        destruct (same_back _ _ _ _ S E') as [E0|(? & ? & X & _)]; [rewrite E0; split; [reflexivity|left; lia]|discriminate].
    + injection E as <- <-. split; [exact S|]. split; [apply same_refl|]. split; [exact Logic.I|].
      assert (nth_error h a = None) as E0. { apply nth_error_None. apply nth_error_None in E'. destruct S as [L _]. lia. }
      cbn [tden tlen den len]. rewrite E0. split; [reflexivity|left; lia].
  - destruct I as (f & b0 & E0 & N). unfold bit_at in E.
    assert (exists b, nth_error h' a = Some (CFloat f b) /\ (b = b0 \/ b = 64)) as (b & E' & B).
    { destruct (proj2 S a _ E0) as [X|(f1 & b1 & [= <- <-] & N1 & N2 & X)]; eauto. }
    rewrite E' in E. injection E as <- <-. split; [exact S|]. split; [apply same_refl|].
    cbn [tden tlen]. destruct (Z.eqb_spec b 64) as [W|W]; cbn [tden tlen tinv]; unfold inside; rewrite E0.
    + split; [exists f, b; auto|]. split; [reflexivity|left; lia].
    + assert (b = b0) as -> by (destruct B as [->|]; [reflexivity|contradiction]).
      split; [exists f, b0; auto|]. split; [reflexivity|left; lia].
  - destruct I as (f & b0 & E0 & N & N2). injection E as <- <-.
    assert (exists b, nth_error h' a = Some (CFloat f b) /\ (b = b0 \/ b = 64)) as (b & E' & B).
    { destruct (proj2 S a _ E0) as [X|(f1 & b1 & [= <- <-] & _ & _ & X)]; eauto. }
    unfold set_bit. rewrite E'.
    assert (G : nth_error (hwrite h' a (CFloat f 64)) a = Some (CFloat f 64)) by (rewrite hwrite_get, Nat.eqb_refl, E'; reflexivity).
    split; [|split; [|split]].
    + split; [rewrite hwrite_len; apply (proj1 S)|]. intros x c Ex. rewrite hwrite_get. destruct (Nat.eqb_spec x a) as [->|Nx]; [|apply (proj2 S), Ex].
      right. rewrite E0 in Ex. injection Ex as <-. rewrite E'. exists f, b0. auto.
    + split; [apply hwrite_len|]. intros x c Ex. rewrite hwrite_get. destruct (Nat.eqb_spec x a) as [->|Nx]; [|left; exact Ex].
      rewrite E' in Ex. injection Ex as <-. rewrite E'. destruct (Z.eq_dec b 64) as [->|]; [left; reflexivity|]. right. exists f, b. destruct B as [->|]; [auto|contradiction].
    + cbn. exists f, 64. auto.
    + cbn [tden tlen]. unfold inside. rewrite E0. split; [reflexivity|left; lia].
  - destruct I as (f & b & E' & B). rewrite E' in E. destruct (same_float _ _ _ _ _ S E') as (b0 & E0 & B0).
    cbn [tden tlen]. unfold inside. rewrite E0. destruct (Z.eqb_spec b 32) as [W|W].
    + injection E as <- <-. split; [exact S|]. split; [apply same_refl|]. split; [exact Logic.I|]. cbn [tden tlen].
      assert (b0 = 32) as -> by (destruct B0 as [->|(-> & _)]; [assumption|discriminate]). unfold float_string. cbn. split; [reflexivity|left; lia].
    + destruct B as [->| ->]; [contradiction|]. cbn in E. injection E as <- <-. split; [exact S|]. split; [apply same_refl|]. split; [exact Logic.I|]. cbn [tden tlen].
      rewrite float_string_width by (destruct B0 as [<-|(_ & X & _)]; [lia|exact X]). split; [reflexivity|left; lia].
  - injection E as <- <-. split; [exact S|]. split; [apply same_refl|]. split; [exact Logic.I|]. split; [reflexivity|]. right. split; [reflexivity|]. right. reflexivity.
Qed.

(** The steps of the others do not matter. *)
Lemma tinv_stable {A} h h' h2 (t : thread A) : same_objects h' h2 -> tinv h h' t -> tinv h h2 t.
Proof.
  intros S. destruct t; cbn; try tauto. intros (f & b & E & B). destruct (proj2 S _ _ E) as [X|(f1 & b1 & [= <- <-] & N1 & N2 & X)]; [exists f, b; auto|exists f, 64; auto].
Qed.

Lemma set_thread_get {A} (ts : list (thread A)) : forall i t j, nth_error (set_thread ts i t) j =
  if Nat.eqb j i then (match nth_error ts i with Some _ => Some t | None => None end) else nth_error ts j.
Proof. induction ts as [|y ts IH]; intros [|i] t [|j]; cbn; try reflexivity; [destruct (Nat.eqb j i); reflexivity|apply IH]. Qed.

Lemma run_inv {A} h sched : forall h1 (ts : list (thread A)) h2 ts2, same_objects h h1 ->
  (forall i t, nth_error ts i = Some t -> tinv h h1 t) -> run sched h1 ts = (h2, ts2) ->
  same_objects h h2 /\ (forall i t, nth_error ts2 i = Some t -> tinv h h2 t) /\
  forall i t, nth_error ts i = Some t -> exists t2, nth_error ts2 i = Some t2 /\ tden h t2 = tden h t /\
    (tlen h t2 <= tlen h t - turns i sched)%nat /\ (over t -> t2 = t).
Proof.
  induction sched as [|i0 sched IH]; intros h1 ts h2 ts2 S I E; cbn [run] in E.
  - injection E as <- <-. split; [exact S|]. split; [exact I|]. intros i t Ei. exists t. split; [exact Ei|]. split; [reflexivity|]. split; [cbn; lia|reflexivity].
  - destruct (nth_error ts i0) as [t0|] eqn:E0.
    + destruct (tstep h1 t0) as [h' t'] eqn:St. destruct (tstep_inv _ _ _ _ _ S (I _ _ E0) St) as (S1 & S2 & I1 & D1 & L1).
      destruct (IH h' (set_thread ts i0 t') h2 ts2 S1) as (S3 & I3 & R3); [|exact E|].
      { intros i t. rewrite set_thread_get, E0. destruct (Nat.eqb_spec i i0) as [->|N]; [intros [= <-]; exact I1|].
        intros Ei. eapply tinv_stable; [exact S2|]. eapply I, Ei. }
      split; [exact S3|]. split; [exact I3|]. intros i t Ei.
      destruct (Nat.eqb_spec i i0) as [->|N].
      * rewrite E0 in Ei. injection Ei as <-. destruct (R3 i0 t') as (t2 & E2 & D2 & L2 & O2).
        { rewrite set_thread_get, Nat.eqb_refl, E0. reflexivity. }
        assert (OT : over t0 -> t' = t0) by (intros [[x ->]| ->]; cbn in St; injection St as _ <-; reflexivity).
        assert (L3 : (tlen h t' <= tlen h t0 - 1)%nat) by (destruct L1 as [L1|[L1 O]]; [lia|rewrite (OT O); lia]).
        exists t2. split; [exact E2|]. split; [congruence|]. split.
        -- unfold turns in *. cbn [count_occ]. destruct (Nat.eq_dec i0 i0); [|congruence]. lia.
        -- intros O. rewrite (OT O) in *. apply O2, O.
      * destruct (R3 i t) as (t2 & E2 & D2 & L2 & O2).
        { rewrite set_thread_get, E0. destruct (Nat.eqb_spec i i0); [contradiction|exact Ei]. }
        exists t2. split; [exact E2|]. split; [exact D2|]. split; [|exact O2]. unfold turns in *. cbn [count_occ]. destruct (Nat.eq_dec i0 i); [congruence|exact L2].
    + destruct (IH h1 ts h2 ts2 S I E) as (S3 & I3 & R3). split; [exact S3|]. split; [exact I3|]. intros i t Ei. destruct (R3 i t Ei) as (t2 & E2 & D2 & L2 & O2).
      exists t2. repeat split; try assumption. unfold turns in *. cbn [count_occ]. destruct (Nat.eq_dec i0 i) as [->|]; [congruence|exact L2].
Qed.

Lemma tlen_zero {A} h h' (t : thread A) : same_objects h h' -> tinv h h' t -> tlen h t = 0%nat -> over t.
Proof.
  intros S I L. destruct t as [[x|a k|a k]|a k|a k|a k|]; cbn in L, I; unfold inside in L.
  - left. exists x. reflexivity.
  - lia.
  - destruct (nth_error h a) as [[]|]; lia.
  - destruct I as (f & b & E & _). rewrite E in L. lia.
  - destruct I as (f & b & E & _). rewrite E in L. lia.
  - destruct I as (f & b & E & _). destruct (same_float _ _ _ _ _ S E) as (b0 & E0 & _). rewrite E0 in L. lia.
  - right. reflexivity.
Qed.
Lemma over_den {A} h (t : thread A) : over t -> match tden h t with Some x => t = Run (Done x) | None => t = Panic end.
Proof. intros [[x ->]| ->]; reflexivity. Qed.
