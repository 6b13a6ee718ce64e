(** Facts about structs with embedded pointers. *)
From Coq Require Import Lia.
From Verif Require Import Base SortedMap Json Heap Gotypes Marshal Access AccessFacts Unmarshal SpecUnmarshal UnmFacts UnmFrame UnmTotal SpecSame UnmSame Embedded.

Section Emb.
Context (locate : list (finfo * gty) -> bytes -> list nat).
Context (S : addr -> Prop) (L : nat).
Notation inn := (UnmFrame.inn S L).
Notation state_in := (UnmFrame.state_in S L).
Notation framed := (UnmFrame.framed S L).
Notation same := UnmSame.same.
Context (un : ustate -> gty -> addr -> json -> ures (option uerr)).
Hypothesis Hun : forall R st st' t a a' j, matched R st st' -> R a a' -> same R (un st t a j) (un st' t a' j).
Hypothesis Hfr : forall st t a j, state_in st -> inn a -> framed st (un st t a j).

(** ** As if the pointers had been there *)

Definition within (R : correspondence) : Prop := forall a a', R a a' -> inn a.
Definition cut (R : correspondence) : correspondence := fun x y => R x y /\ inn x.

Lemma F2_cut (R : correspondence) l l' : Forall2 R l l' -> (forall y, In y l -> inn y) -> Forall2 (cut R) l l'.
Proof. induction 1 as [|x y l l' Rx _ IH]; intros H; constructor; [split; [exact Rx|apply H; left; reflexivity]|apply IH; intros; apply H; right; assumption]. Qed.
Lemma like_cut R c c' : like R c c' -> (forall y, In y (mentions c) -> inn y) -> like (cut R) c c'.
Proof.
  intros Lk H. both c c' Lk; cbn [mentions] in H; cbn [like]; try exact Lk; try (apply F2_cut; assumption).
  - destruct Lk as [Lk ->]. split; [apply F2_cut; assumption|reflexivity].
  - split; [exact Lk|apply H; left; reflexivity].
  - induction Lk as [|[k x] [k' y] l l' [E Rx] _ IH]; constructor; [split; [exact E|split; [exact Rx|apply H; left; reflexivity]]|apply IH; intros; apply H; right; assumption].
  - split; [exact Lk|apply H; left; reflexivity].
  - destruct Lk as [Lk ->]. split; [split; [exact Lk|apply H; left; reflexivity]|reflexivity].
Qed.

Lemma matched_cut R st st' : matched R st st' -> state_in st -> matched (cut R) st st'.
Proof.
  intros [[H1 H2] Hs] [C Q]. split; [split|].
  - intros a b a' b' [Ra _] [Rb _]. apply H1; assumption.
  - intros a a' [Ra Ia]. destruct (H2 a a' Ra) as (c & c' & E & E' & Lk). exists c, c'. split; [exact E|]. split; [exact E'|]. apply like_cut; [exact Lk|].
    intros y Iy. eapply closed_cell; eassumption.
  - intros n. specialize (Hs n). pose proof (Q n) as Qn. destruct (find_node (u_sess st) n) as [v|], (find_node (u_sess st') n) as [v'|]; try exact Hs.
    destruct (Qn v eq_refl) as [Q1 Q2]. destruct Hs as [V T]. split.
    + destruct (nv_value v) as [[b t]|], (nv_value v') as [[b' t']|]; try exact V. destruct V as [V1 V2]. split; [split; [exact V1|eapply Q1; reflexivity]|exact V2].
    + revert Q2. induction T as [|[x t] [y t'] l l' [Rx E] _ IH]; intros Q2; constructor; [split; [split; [exact Rx|eapply Q2; left; reflexivity]|exact E]|]. apply IH. intros b t0 I. eapply Q2. right. exact I.
Qed.

Definition kept (R : correspondence) (st st' : ustate) : Prop := matched R st st' /\ within R /\ state_in st.
Definition same_in {A} (R : correspondence) (r r' : ures A) : Prop :=
  match r, r' with
  | UOk st x, UOk st' x' => x = x' /\ exists R', extended R R' /\ kept R' st st'
  | UPanic, UPanic | UFuel, UFuel => True
  | _, _ => False
  end.
Lemma in_ok {A} R st st' (x : A) : kept R st st' -> same_in R (UOk st x) (UOk st' x).
Proof. intros H. split; [reflexivity|]. exists R. split; [apply ext_refl|exact H]. Qed.
Lemma in_bind {A C} R (r r' : ures A) (k k' : ustate -> A -> ures C) :
  same_in R r r' -> (forall R' st st' x, extended R R' -> kept R' st st' -> same_in R' (k st x) (k' st' x)) -> same_in R (ubind r k) (ubind r' k').
Proof.
  intros H K. destruct r, r'; try exact H; try contradiction H. destruct H as [-> (R' & E & M)]. cbn [ubind]. specialize (K R' st st0 r0 E M).
  destruct (k st r0), (k' st0 r0); try exact K. destruct K as [-> (R2 & E2 & M2)]. split; [reflexivity|]. exists R2. split; [eapply ext_trans; eassumption|exact M2].
Qed.

Lemma un_kept R st st' t a a' j : kept R st st' -> R a a' -> same_in R (un st t a j) (un st' t a' j).
Proof.
  intros (M & W & I) Ra. pose proof (Hun R st st' t a a' j M Ra) as U. pose proof (Hfr st t a j I (W _ _ Ra)) as F.
  destruct (un st t a j) as [s x| |], (un st' t a' j) as [s' x'| |]; try exact U. destruct U as [-> (R' & E & M')]. destruct F as [I' _].
  split; [reflexivity|]. exists (cut R'). split; [intros x y Rx; split; [apply E, Rx|eapply W, Rx]|]. split; [apply matched_cut; assumption|]. split; [|exact I']. intros x y [_ Ix]. exact Ix.
Qed.

Lemma write_out R m m' f c : corresponds R m m' -> (forall a', ~ R f a') -> corresponds R (mwrite m f c) m'.
Proof.
  intros [H1 H2] N. split; [exact H1|]. intros a a' Ra. rewrite mwrite_other; [apply H2, Ra|]. intros <-. exact (N _ Ra).
Qed.
Lemma closed_out m f c : UnmFrame.closed S L m -> ~ inn f -> UnmFrame.closed S L (mwrite m f c).
Proof.
  intros [HL H] N. split; [rewrite mwrite_length; exact HL|]. intros x d y Ix E Iy. rewrite mwrite_other in E by (intros <-; exact (N Ix)). eapply H; eassumption.
Qed.

Definition outside (p : parent) : Prop := match p with Some (f, _) => ~ inn f | None => True end.
Lemma parent_in st p : state_in st -> outside p -> state_in (with_mem st (set_parent (u_mem st) p)).
Proof.
  intros [C Q] O. split; [|exact Q]. cbn [u_mem with_mem]. unfold set_parent. destruct p as [[f b]|]; [|exact C].
  destruct (nth_error (u_mem st) f) as [c|]; [destruct c as [| | | | | | | | |[]| | | | |]|]; try exact C. apply closed_out; assumption.
Qed.
Lemma parent_kept R st st' p : kept R st st' -> outside p -> kept R (with_mem st (set_parent (u_mem st) p)) st'.
Proof.
  intros (M & W & I) O. split; [|split; [exact W|apply parent_in; assumption]]. split; [|apply M]. cbn [u_mem with_mem]. unfold set_parent. destruct p as [[f b]|]; [|apply M].
  destruct (nth_error (u_mem st) f) as [c|]; [destruct c as [| | | | | | | | |[]| | | | |]|]; try apply M. apply write_out; [apply M|]. intros a' Ra. exact (O (W _ _ Ra)).
Qed.

Context (fs : list (finfo * gty)) (ps : list parent).
Hypothesis Hps : forall i, outside (nth i ps None).

Lemma set_field_kept j : forall fuel key visited R l l' st st', kept R st st' -> Forall2 R l l' ->
  same_in R (set_field_p locate un fuel st visited fs l ps key j) (set_field locate un fuel st' visited fs l' key j).
Proof.
  induction fuel as [|fuel IH]; intros key visited R l l' st st' H F; [exact Logic.I|]. cbn [set_field set_field_p]. destruct (in_strings key visited); [apply in_ok, H|].
  generalize (key :: visited). revert R st st' H F. induction (locate fs key) as [|i idx IHi]; intros R st st' H F v; [apply in_ok, H|].
  destruct (nth_error fs i) as [[info t]|]; [|exact Logic.I]. pose proof (F2_nth _ _ _ F i) as N.
  destruct (nth_error l i) as [a|], (nth_error l' i) as [a'|]; try contradiction; [|exact Logic.I].
  apply in_bind; [apply un_kept; [apply parent_kept; [exact H|apply Hps]|exact N]|]. intros R' s s' [e|] E H1; [apply in_ok, H1|].
  pose proof (F2_ext _ _ _ _ E F) as F1. destruct (fi_deprecated_by info) as [other|]; [|apply IHi; assumption].
  apply in_bind; [apply IH; assumption|]. intros R2 s2 s2' [v2 [e|]] E2 H2; [apply in_ok, H2|]. apply IHi; [exact H2|]. eapply F2_ext; eassumption.
Qed.

Lemma un_fields_kept kvs : forall R l l' st st' errs, kept R st st' -> Forall2 R l l' ->
  same_in R (un_fields_p locate un st fs l ps kvs errs) (un_fields locate un st' fs l' kvs errs).
Proof.
  induction kvs as [|[k j] kvs IH]; intros R l l' st st' errs H F; [apply in_ok, H|]. cbn [un_fields un_fields_p].
  apply in_bind; [apply set_field_kept; assumption|]. intros R' s s' r E H1. apply IH; [exact H1|eapply F2_ext; eassumption].
Qed.

(** ** The pointers *)

Context (l : list addr).
Hypothesis Hl : Forall inn l.
Context (f : addr).
Hypothesis Hf : ~ inn f.
Definition at_f (st : ustate) : option vcell := nth_error (u_mem st) f.

Lemma un_at_f st t a j st1 e : state_in st -> inn a -> un st t a j = UOk st1 e -> state_in st1 /\ at_f st1 = at_f st.
Proof.
  intros I Ia E. pose proof (Hfr st t a j I Ia) as F. rewrite E in F. destruct F as [I1 F]. split; [exact I1|].
  apply F; [destruct (Nat.lt_ge_cases f L) as [H|H]; [exact H|]; destruct Hf; right; exact H|]. intros H. apply Hf. left. exact H.
Qed.

(** Nothing changes a pointer that is set. *)
Lemma set_stays j c : c <> VPtr None -> forall fuel key visited st st' r, state_in st -> at_f st = Some c ->
  set_field_p locate un fuel st visited fs l ps key j = UOk st' r -> state_in st' /\ at_f st' = Some c.
Proof.
  intros Nc.
  assert (P : forall st i, state_in st -> at_f st = Some c -> state_in (with_mem st (set_parent (u_mem st) (nth i ps None))) /\ at_f (with_mem st (set_parent (u_mem st) (nth i ps None))) = Some c).
  { intros st i I A. split; [apply parent_in; [exact I|apply Hps]|]. unfold at_f, set_parent. cbn [u_mem with_mem]. destruct (nth i ps None) as [[g b]|]; [|exact A].
    unfold at_f in A. destruct (nth_error (u_mem st) g) as [d|] eqn:E; [destruct d as [| | | | | | | | |[]| | | | |]|]; try exact A.
    rewrite mwrite_other; [exact A|]. intros ->. rewrite E in A. injection A as <-. apply Nc. reflexivity. }
  induction fuel as [|fuel IH]; intros key visited st st' r I A E; [discriminate E|]. cbn [set_field_p] in E. destruct (in_strings key visited); [injection E as <- _; split; assumption|].
  revert E. generalize (key :: visited). revert st I A. induction (locate fs key) as [|i idx IHi]; intros st I A v E; [injection E as <- _; split; assumption|].
  destruct (nth_error fs i) as [[info t]|]; [|discriminate E]. destruct (nth_error l i) as [a|] eqn:Ea; [|discriminate E].
  assert (Ia : inn a) by (rewrite Forall_forall in Hl; apply Hl; eapply nth_error_In; exact Ea).
  destruct (P st i I A) as [I0 A0]. set (st0 := with_mem st _) in *.
  destruct (un st0 t a j) as [st1 e| |] eqn:U; try discriminate E. cbn [ubind] in E. destruct (un_at_f _ _ _ _ _ _ I0 Ia U) as [I1 A1]. rewrite A0 in A1.
  destruct e as [e|]; [injection E as <- _; split; assumption|]. destruct (fi_deprecated_by info) as [other|]; [|eapply IHi; eassumption].
  destruct (set_field_p locate un fuel st1 v fs l ps other j) as [st2 [v2 e2]| |] eqn:U2; try discriminate E. cbn [ubind fst snd] in E. destruct (IH _ _ _ _ _ I1 A1 U2) as [I2 A2].
  destruct e2 as [e2|]; [injection E as <- _; split; assumption|]. eapply IHi; eassumption.
Qed.

Context (b : addr).
Definition chosen (i : nat) : Prop := exists b', nth i ps None = Some (f, b').
Hypothesis Hb : forall i b', nth i ps None = Some (f, b') -> b' = b.
Definition nil_f (st : ustate) : Prop := at_f st = Some (VPtr None).
Definition set_f (st : ustate) : Prop := at_f st = Some (VPtr (Some b)).

Lemma parent_f st i : state_in st -> nil_f st \/ set_f st ->
  let st0 := with_mem st (set_parent (u_mem st) (nth i ps None)) in
  state_in st0 /\ (set_f st -> set_f st0) /\ (chosen i -> set_f st0) /\ (nil_f st -> nil_f st0 \/ set_f st0 /\ chosen i).
Proof.
  intros I A st0. split; [apply parent_in; [exact I|apply Hps]|]. unfold st0, set_f, nil_f, at_f, set_parent, chosen in *. cbn [u_mem with_mem].
  pose proof (Hb i) as Hbi. destruct (nth i ps None) as [[g d]|] eqn:Ei; [|split; [auto|split; [intros [? D]; discriminate D|auto]]].
  destruct (Nat.eq_dec g f) as [->|N].
  - specialize (Hbi d eq_refl). subst d. destruct A as [A|A]; rewrite A.
    + assert (Lf : (f < length (u_mem st))%nat) by (eapply nth_error_lt; exact A). rewrite mwrite_same by exact Lf. split; [auto|]. split; [auto|]. intros _. right. split; [reflexivity|]. exists b. reflexivity.
    + split; [auto|]. split; [auto|]. intros D. discriminate D.
  - assert (X : nth_error (set_parent (u_mem st) (Some (g, d))) f = nth_error (u_mem st) f).
    { unfold set_parent. destruct (nth_error (u_mem st) g) as [c|]; [destruct c as [| | | | | | | | |[]| | | | |]|]; try reflexivity. apply mwrite_other. exact N. }
    unfold set_parent in X. rewrite X. split; [auto|]. split; [intros [b' D]; injection D as D _; contradiction|auto].
Qed.

Definition done (st : ustate) (v : list bytes) (i : nat) : Prop :=
  (chosen i -> set_f st) /\ forall info t other, nth_error fs i = Some (info, t) -> fi_deprecated_by info = Some other -> In other v.
Definition went (st st' : ustate) (v : list bytes) (Q : Prop) (key : bytes) (r : list bytes * option uerr) : Prop :=
  state_in st' /\ (set_f st -> set_f st') /\ (nil_f st -> nil_f st' \/ set_f st' /\ exists i, selects locate fs key i /\ chosen i) /\
  (snd r = None -> (forall x, In x v -> In x (fst r)) /\ (forall k, In k (fst r) -> ~ In k v -> forall i, In i (locate fs k) -> done st' (fst r) i) /\ Q).

Lemma done_more st st' v v' i : done st v i -> (set_f st -> set_f st') -> (forall x, In x v -> In x v') -> done st' v' i.
Proof. intros [D1 D2] H1 H2. split; [auto|]. intros info t other E1 E2. eapply H2, D2; eassumption. Qed.

Lemma set_field_went j : forall fuel key visited st st' r, state_in st -> nil_f st \/ set_f st ->
  set_field_p locate un fuel st visited fs l ps key j = UOk st' r -> went st st' visited (In key (fst r)) key r.
Proof.
  induction fuel as [|fuel IH]; intros key visited st st' r I A E; [discriminate E|]. cbn [set_field_p] in E.
  destruct (in_strings key visited) eqn:V.
  { injection E as <- <-. split; [exact I|]. split; [auto|]. split; [auto|]. intros _. split; [auto|]. split; [intros k H N; destruct (N H)|]. apply in_strings_iff, V. }
  assert (G : forall idx, (forall i, In i idx -> In i (locate fs key)) -> forall st st' v r, state_in st -> nil_f st \/ set_f st ->
    (fix go (idx : list nat) (st : ustate) (visited : list bytes) : ures (list bytes * option uerr) :=
           match idx with
           | [] => UOk st (visited, None)
           | i :: idx' =>
               match nth_error fs i, nth_error l i with
               | Some (info, t), Some a =>
                   let st := with_mem st (set_parent (u_mem st) (nth i ps None)) in
                   ubind (un st t a j) (fun st1 e =>
                     match e with
                     | Some _ => UOk st1 (visited, e)
                     | None =>
                         match fi_deprecated_by info with
                         | None => go idx' st1 visited
                         | Some other =>
                             ubind (set_field_p locate un fuel st1 visited fs l ps other j) (fun st2 r =>
                               match snd r with
                               | Some _ => UOk st2 r
                               | None => go idx' st2 (fst r)
                               end)
                         end
                     end)
               | _, _ => UPanic
               end
           end) idx st v = UOk st' r -> went st st' v (forall i, In i idx -> done st' (fst r) i) key r).
  { clear st st' r I A E V. induction idx as [|i idx IHi]; intros Sub st st' v r I A E.
    { injection E as <- <-. split; [exact I|]. split; [auto|]. split; [auto|]. intros _. split; [auto|]. split; [intros k H N; destruct (N H)|]. intros i []. }
    destruct (nth_error fs i) as [[info t]|] eqn:Ei; [|discriminate E]. destruct (nth_error l i) as [a|] eqn:Ea; [|discriminate E].
    assert (Ia : inn a) by (rewrite Forall_forall in Hl; apply Hl; eapply nth_error_In; exact Ea).
    cbv zeta in E. pose proof (parent_f st i I A) as P. cbv zeta in P. set (st0 := with_mem st _) in *. destruct P as (I0 & P1 & P2 & P3).
    destruct (un st0 t a j) as [st1 e| |] eqn:U; try discriminate E. cbn [ubind] in E. destruct (un_at_f _ _ _ _ _ _ I0 Ia U) as [I1 A1].
    assert (S1 : set_f st0 -> set_f st1) by (unfold set_f; rewrite A1; auto). assert (N1 : nil_f st0 -> nil_f st1) by (unfold nil_f; rewrite A1; auto).
    assert (Pick : chosen i -> exists i, selects locate fs key i /\ chosen i) by (intros C; exists i; split; [apply sel_here, Sub; left; reflexivity|exact C]).
    assert (NN : nil_f st -> nil_f st1 \/ set_f st1 /\ exists i, selects locate fs key i /\ chosen i) by (intros N; destruct (P3 N) as [H|[H C]]; [left; apply N1, H|right; split; [apply S1, H|apply Pick, C]]).
    assert (AA : nil_f st1 \/ set_f st1) by (destruct A as [A|A]; [destruct (NN A) as [H|[H _]]; auto|right; apply S1, P1, A]).
    destruct e as [e|]; [injection E as <- <-; split; [exact I1|]; split; [auto|]; split; [exact NN|]; intros D; discriminate D|].
    assert (Fin : forall st2 v2, state_in st2 -> nil_f st2 \/ set_f st2 -> (set_f st1 -> set_f st2) -> (nil_f st1 -> nil_f st2 \/ set_f st2 /\ exists i, selects locate fs key i /\ chosen i) ->
      (forall x, In x v -> In x v2) -> (forall k, In k v2 -> ~ In k v -> forall i, In i (locate fs k) -> done st2 v2 i) -> (forall other, fi_deprecated_by info = Some other -> In other v2) ->
      went st2 st' v2 (forall i, In i idx -> done st' (fst r) i) key r -> went st st' v (forall i0, In i0 (i :: idx) -> done st' (fst r) i0) key r).
    { intros st2 v2 I2 A2 M2 N2 V2 K2 O2 (W1 & W2 & W3 & W4). split; [exact W1|]. split; [auto|]. split.
      - intros N. destruct (NN N) as [H|[H C]]; [destruct (N2 H) as [H'|[H' C]]; [apply W3, H'|right; split; [apply W2, H'|exact C]]|right; split; [apply W2, M2, H|exact C]].
      - intros Er. destruct (W4 Er) as (X1 & X2 & X3). split; [intros x Hx; apply X1, V2, Hx|]. split.
        + intros k Hk Nk i0 Hi0. destruct (in_strings k v2) eqn:D.
          * apply in_strings_iff in D. eapply done_more; [exact (K2 k D Nk i0 Hi0)|exact W2|exact X1].
          * apply (X2 k Hk); [|exact Hi0]. intros D'. apply in_strings_iff in D'. congruence.
        + intros i0 [<-|H0]; [|apply X3, H0]. split; [intros C; apply W2, M2, S1, P2, C|]. intros info' t' other E1 E2. rewrite Ei in E1. injection E1 as <- <-. apply X1, O2, E2. }
    destruct (fi_deprecated_by info) as [other|] eqn:Dep.
    - destruct (set_field_p locate un fuel st1 v fs l ps other j) as [st2 [v2 e2]| |] eqn:U2; try discriminate E. cbn [ubind fst snd] in E.
      destruct (IH _ _ _ _ _ I1 AA U2) as (W1 & W2 & W3 & W4). cbn [fst snd] in *.
      assert (W3' : nil_f st1 -> nil_f st2 \/ set_f st2 /\ exists i, selects locate fs key i /\ chosen i).
      { intros N. destruct (W3 N) as [H|[H (i' & Sl & C)]]; [auto|]. right. split; [exact H|]. exists i'. split; [|exact C]. eapply sel_next; [apply Sub; left; reflexivity|exact Ei|exact Dep|exact Sl]. }
      assert (A2 : nil_f st2 \/ set_f st2) by (destruct AA as [H|H]; [destruct (W3 H) as [H'|[H' _]]; auto|auto]).
      destruct e2 as [e2|].
      + injection E as <- <-. split; [exact W1|]. split; [auto|]. split; [|intros D; discriminate D].
        intros N. destruct (NN N) as [H|[H C]]; [apply W3', H|right; split; [apply W2, H|exact C]].
      + destruct (W4 eq_refl) as (X1 & X2 & X3). apply (Fin st2 v2); try assumption.
        * intros o D. injection D as <-. exact X3.
        * apply IHi; [intros; apply Sub; right; assumption|exact W1|exact A2|exact E].
    - apply (Fin st1 v); try assumption; auto.
      + intros k H N. destruct (N H).
      + intros o D. discriminate D.
      + apply IHi; [intros; apply Sub; right; assumption|exact I1|exact AA|exact E]. }
  destruct (G _ (fun i H => H) _ _ _ _ I A E) as (W1 & W2 & W3 & W4). split; [exact W1|]. split; [exact W2|]. split; [exact W3|].
  intros Er. destruct (W4 Er) as (X1 & X2 & X3). split; [intros x Hx; apply X1; right; exact Hx|]. split; [|apply X1; left; reflexivity].
  intros k Hk Nk i Hi. destruct (list_eq_dec Byte.byte_eq_dec k key) as [->|Ne]; [apply X3, Hi|]. apply (X2 k Hk); [|exact Hi]. intros [D|D]; [congruence|contradiction].
Qed.

Lemma set_field_all j fuel key st st' r : state_in st -> nil_f st \/ set_f st -> set_field_p locate un fuel st [] fs l ps key j = UOk st' r -> snd r = None ->
  forall i, selects locate fs key i -> chosen i -> set_f st'.
Proof.
  intros I A E Er. destruct (set_field_went _ _ _ _ _ _ _ I A E) as (_ & _ & _ & W). destruct (W Er) as (_ & X & K).
  assert (G : forall k i, selects locate fs k i -> In k (fst r) -> chosen i -> set_f st').
  { intros k i Sl. induction Sl as [k i Hi|k i info t other i' Hi Ei D _ IH]; intros Hk C.
    - apply (X k Hk (fun F => F) i Hi), C.
    - apply IH; [|exact C]. apply (proj2 (X k Hk (fun F => F) i Hi) info t other Ei D). }
  intros i Sl. apply (G key); [exact Sl|exact K].
Qed.

Lemma un_fields_f kvs : forall errs st st' e, state_in st -> nil_f st \/ set_f st -> un_fields_p locate un st fs l ps kvs errs = UOk st' e ->
  state_in st' /\ (set_f st -> set_f st') /\
  (nil_f st -> nil_f st' \/ set_f st' /\ exists k j i, In (k, j) kvs /\ selects locate fs k i /\ chosen i) /\
  (e = None -> forall k j i, In (k, j) kvs -> selects locate fs k i -> chosen i -> set_f st').
Proof.
  induction kvs as [|[k j] kvs IH]; intros errs st st' e I A E.
  - injection E as <- <-. split; [exact I|]. split; [auto|]. split; [auto|]. intros _ k j i [].
  - cbn [un_fields_p] in E. destruct (set_field_p locate un _ st [] fs l ps k j) as [st1 r| |] eqn:U; try discriminate E. cbn [ubind] in E.
    destruct (set_field_went _ _ _ _ _ _ _ I A U) as (W1 & W2 & W3 & _).
    assert (A1 : nil_f st1 \/ set_f st1) by (destruct A as [H|H]; [destruct (W3 H) as [H'|[H' _]]; auto|auto]).
    destruct (IH _ _ _ _ W1 A1 E) as (Y1 & Y2 & Y3 & Y4). split; [exact Y1|]. split; [auto|]. split.
    + intros N. destruct (W3 N) as [H|[H (i & Sl & C)]].
      * destruct (Y3 H) as [H'|[H' (k' & j' & i & Hk & Sl & C)]]; [auto|]. right. split; [exact H'|]. exists k', j', i. split; [right; exact Hk|split; assumption].
      * right. split; [apply Y2, H|]. exists k, j, i. split; [left; reflexivity|split; assumption].
    + intros -> k' j' i [D|H] Sl C; [|eapply Y4; [reflexivity|exact H|exact Sl|exact C]]. injection D as <- <-. apply Y2.
      eapply set_field_all; [exact I|exact A|exact U| |exact Sl|exact C].
      destruct (snd r) as [e1|]; [|reflexivity]. exfalso.
      assert (Z : forall kvs errs st st', errs <> [] -> un_fields_p locate un st fs l ps kvs errs = UOk st' None -> False).
      { clear. induction kvs as [|[k j] kvs IH]; intros errs st st' N E; [destruct errs; [contradiction|discriminate E]|]. cbn [un_fields_p] in E.
        destruct (set_field_p locate un _ st [] fs l ps k j) as [st1 r| |]; try discriminate E. cbn [ubind] in E. eapply IH; [|exact E]. destruct (snd r); [destruct errs; discriminate|exact N]. }
      eapply Z; [|exact E]. destruct errs; discriminate.
Qed.

Lemma un_fields_stay kvs c : c <> VPtr None -> forall errs st st' e, state_in st -> at_f st = Some c -> un_fields_p locate un st fs l ps kvs errs = UOk st' e -> at_f st' = Some c.
Proof.
  intros N. induction kvs as [|[k j] kvs IH]; intros errs st st' e I A E; [injection E as <- <-; exact A|]. cbn [un_fields_p] in E.
  destruct (set_field_p locate un _ st [] fs l ps k j) as [st1 r| |] eqn:U; try discriminate E. cbn [ubind] in E. destruct (set_stays _ _ N _ _ _ _ _ _ I A U) as [I1 A1]. eapply IH; eassumption.
Qed.

(** The first field of a name *)
Lemma parent_twice m p : set_parent (set_parent m p) p = set_parent m p.
Proof.
  unfold set_parent at 1. destruct p as [[g d]|]; [|reflexivity]. destruct (nth_error (set_parent m (Some (g, d))) g) as [c|] eqn:E; [|reflexivity].
  assert (N : c <> VPtr None); [|destruct c as [| | | | | | | | |[]| | | | |]; try reflexivity; destruct (N eq_refl)].
  intros ->. revert E. unfold set_parent. destruct (nth_error m g) as [c|] eqn:E.
  - destruct c as [| | | | | | | | |[]| | | | |]; rewrite ?E; try discriminate. rewrite mwrite_same by (eapply nth_error_lt; exact E). discriminate.
  - rewrite E. discriminate.
Qed.
Lemma set_field_first j fuel key i idx st st' r : state_in st -> nil_f st \/ set_f st -> locate fs key = i :: idx -> chosen i ->
  set_field_p locate un fuel st [] fs l ps key j = UOk st' r -> set_f st'.
Proof.
  intros I A El C E. destruct (parent_f st i I A) as (I0 & _ & P & _). specialize (P C). set (st0 := with_mem st _) in *.
  assert (E0 : set_field_p locate un fuel st0 [] fs l ps key j = UOk st' r).
  { rewrite <- E. destruct fuel as [|fuel]; [reflexivity|]. cbn [set_field_p in_strings existsb]. rewrite El.
    destruct (nth_error fs i) as [[info t]|]; [|reflexivity]. destruct (nth_error l i); [|reflexivity]. cbv zeta.
    replace (with_mem st0 (set_parent (u_mem st0) (nth i ps None))) with st0; [reflexivity|]. unfold st0. cbn [u_mem with_mem]. rewrite parent_twice. reflexivity. }
  exact (proj1 (proj2 (set_field_went _ _ _ _ _ _ _ I0 (or_intror P) E0)) P).
Qed.
Lemma un_fields_first kvs : forall errs st st' e, state_in st -> nil_f st \/ set_f st -> un_fields_p locate un st fs l ps kvs errs = UOk st' e ->
  forall k j i idx, In (k, j) kvs -> locate fs k = i :: idx -> chosen i -> set_f st'.
Proof.
  induction kvs as [|[k j] kvs IH]; intros errs st st' e I A E k' j' i idx; [intros []|].
  cbn [un_fields_p] in E. destruct (set_field_p locate un _ st [] fs l ps k j) as [st1 r| |] eqn:U; try discriminate E. cbn [ubind] in E.
  destruct (set_field_went _ _ _ _ _ _ _ I A U) as (W1 & W2 & W3 & _).
  assert (A1 : nil_f st1 \/ set_f st1) by (destruct A as [H|H]; [destruct (W3 H) as [H'|[H' _]]; auto|auto]).
  intros [D|H] El C; [|eapply IH; [exact W1|exact A1|exact E|exact H|exact El|exact C]]. injection D as <- <-.
  apply (un_fields_f _ _ _ _ _ W1 A1 E). eapply set_field_first; [exact I|exact A|exact El|exact C|exact U].
Qed.
End Emb.
