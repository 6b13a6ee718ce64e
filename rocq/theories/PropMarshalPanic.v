(** When Marshal and MarshalAll panic, when they never end, and when they
    return: C56. *)
From Verif Require Import Base Strconv SortedMap Json SpecJson SpecLenient Printer Parser Heap Gotypes Marshal SpecMarshal MarshalX SpecMarshalPanic
  MarshalFacts MarshalFinal MarshalXFacts MarshalXEnd PropMarshal PropLenient.

Section C56.
Context (omit : bool) (pick : list Z -> Z) (st : xstore).

Lemma xmarshal_call v : v <> XPtr None -> forall n, xmarshal omit pick n st (Some v) =
  after (xmval st omit n new_session v None) (fun '(s, r) => match r with Some m => Returns (set_ids pick (s_trace s) m) | None => Returns JNull end).
Proof using. intros N n. unfold xmarshal. destruct v as [| | | | | | | | | |[a|]| | | | | | |]; try reflexivity. destruct (N eq_refl). Qed.

Lemma nil_ptr_dec (v : xval) : v = XPtr None \/ v <> XPtr None.
Proof using. destruct v as [| | | | | | | | | |[a|]| | | | | | |]; auto; right; discriminate. Qed.

(** Marshal panics only if something in what it visits is a value that it
    cannot handle. *)
Theorem C56_panics_only n v : xmarshal omit pick n st (Some v) = Panics ->
  exists x, contains st v x /\ unmarshalable x.
Proof using.
  intros E. destruct (nil_ptr_dec v) as [->|N]; [discriminate|]. rewrite xmarshal_call in E by exact N.
  destruct (xmval st omit n new_session v None) as [| |[s r]] eqn:X; cbn [after] in E; [discriminate| |destruct r; discriminate].
  eapply xmval_panic, X.
Qed.

(** It returns only if nothing in what it visits is, and if it can get done
    with all of it. *)
Theorem C56_returns_only n v j : xmarshal omit pick n st (Some v) = Returns j ->
  forall x, contains st v x -> ~ unmarshalable x /\ ~ endless st x.
Proof using.
  intros E x C. assert (~ (unmarshalable x \/ endless st x)); [|tauto]. intros U.
  destruct (nil_ptr_dec v) as [->|N].
  - inversion C as [|? ? ? ? I]; subst; [|inversion I]. destruct U as [U|[U|(fs & k & U & _)]]; [exact U| |discriminate U].
    inversion U as [? ? I|? ? ? I]; inversion I.
  - rewrite xmarshal_call in E by exact N. destruct (xmval st omit n new_session v None) as [| |[s r]] eqn:X; cbn [after] in E; try discriminate.
    destruct (xmval_clean st omit (fun y => unmarshalable y \/ endless st y) (returns_fine st omit) n _ _ _ _ _ X) as [T _]. apply T. eapply trouble_all; eassumption.
Qed.

(** If it can get done with everything that it visits, then it ends: it returns
    or panics. *)
Theorem C56_ends v : complete st v -> (forall x, contains st v x -> ~ endless st x) ->
  exists N r, r <> Going /\ forall n, (N <= n)%nat -> xmarshal omit pick n st (Some v) = r.
Proof using.
  intros C E. destruct (nil_ptr_dec v) as [->|NV]; [exists O, (Returns JNull); split; [discriminate|reflexivity]|].
  destruct (xmval_ends_all st omit v None) as (N & r & R & H); [split; assumption|].
  exists N, (after r (fun '(s, r) => match r with Some m => Returns (set_ids pick (s_trace s) m) | None => Returns JNull end)). split.
  - destruct r as [| |[s [m|]]]; [destruct (R eq_refl)|discriminate..].
  - intros n L. rewrite xmarshal_call by exact NV. rewrite H by exact L. reflexivity.
Qed.

(** Together: it returns exactly if nothing in what it visits is trouble. *)
Theorem C56_returns_iff v : complete st v ->
  (exists n j, xmarshal omit pick n st (Some v) = Returns j) <-> (forall x, contains st v x -> ~ unmarshalable x /\ ~ endless st x).
Proof using.
  intros C. split; [intros (n & j & E); eapply C56_returns_only, E|]. intros H.
  destruct (C56_ends v C (fun x X => proj2 (H x X))) as (N & r & R & E). specialize (E N (le_n _)). destruct r as [| |j]; [destruct (R eq_refl)| |eauto].
  destruct (C56_panics_only _ _ E) as (x & X & U). destruct (proj1 (H x X) U).
Qed.

(** And if all of it can be got done with, it panics exactly if something is a
    value that it cannot handle. *)
Theorem C56_panics_iff v : complete st v -> (forall x, contains st v x -> ~ endless st x) ->
  (exists n, xmarshal omit pick n st (Some v) = Panics) <-> (exists x, contains st v x /\ unmarshalable x).
Proof using.
  intros C D. split; [intros (n & E); eapply C56_panics_only, E|]. intros (x & X & U).
  destruct (C56_ends v C D) as (N & r & R & E). specialize (E N (le_n _)). destruct r as [| |j]; [destruct (R eq_refl)|eauto|].
  destruct (proj1 (C56_returns_only _ _ _ E _ X) U).
Qed.

(** If it handles all that it visits but cannot get done with some of it, it
    never ends. *)
Theorem C56_never_ends v x : contains st v x -> endless st x -> (forall y, contains st v y -> ~ unmarshalable y) ->
  forall n, xmarshal omit pick n st (Some v) = Going.
Proof using.
  intros X E H n. destruct (xmarshal omit pick n st (Some v)) as [| |j] eqn:R; [reflexivity| |].
  - destruct (C56_panics_only _ _ R) as (y & Y & U). destruct (H y Y U).
  - destruct (proj2 (C56_returns_only _ _ _ R _ X) E).
Qed.

(** What it returns is what C30 to C33 speak of. *)
Theorem C56_otherwise gs v g n j : Forall2 (stands st) st gs -> stands st v g ->
  xmarshal omit pick n st (Some v) = Returns j -> marshal_with omit pick n gs (Some g) = Some j.
Proof using.
  intros F S E. destruct (nil_ptr_dec v) as [->|N].
  - cbn in E. injection E as <-. inversion S; subst; [reflexivity|contradiction].
  - rewrite xmarshal_call in E by exact N. destruct (xmval st omit n new_session v None) as [| |[s r]] eqn:X; cbn [after] in E; try discriminate.
    pose proof (xmval_agree st gs omit F n _ _ _ _ _ S X) as M.
    assert (G : g <> GPtr None).
    { intros ->. inversion S; subst; try congruence.
      all: try match goal with H : stands _ (XMap _) (GPtr _) |- _ => inversion H; contradiction end.
      all: try match goal with H : stands _ (XSlice _) (GPtr _) |- _ => inversion H; contradiction end.
      destruct (returns_fine _ _ _ _ _ _ _ X). auto. }
    unfold marshal_with. destruct g as [| | | | | | | | | |[a|]| | | | | |]; try (rewrite M; destruct r; congruence). destruct (G eq_refl).
Qed.
End C56.

(** ** Instances and what they refute *)

Definition flagged : finfo := plain (nm "flag").
Definition ignored_flag : finfo :=
  {| fi_name := nm "flag"; fi_ignore := true; fi_omit_empty := false; fi_omit_zero := false;
     fi_omit_false := false; fi_force_string := false; fi_deprecated_by := None |}.

(** type Flag bool: Marshal panics at a field of this type, whatever its value
    and wherever the struct is, unless the field is ignored. *)
Theorem C56_named_bool omit pick st v fs b : complete st v -> (forall x, contains st v x -> ~ endless st x) ->
  contains st v (XStruct ((flagged, XBool true b) :: fs)) ->
  exists N, forall n, (N <= n)%nat -> xmarshal omit pick n st (Some v) = Panics.
Proof.
  intros C D X. destruct (C56_ends omit pick st v C D) as (N & r & R & E). exists N. intros n L. rewrite (E n L).
  specialize (E N (le_n _)). destruct r as [| |j]; [destruct (R eq_refl)|reflexivity|].
  assert (Y : contains st v (XBool true b)).
  { clear -X. remember (XStruct ((flagged, XBool true b) :: fs)) as u eqn:U. induction X as [v|v p w x I _ IH]; [subst v|econstructor; [exact I|auto]].
    econstructor; [|apply c_self]. eapply in_field; [left; reflexivity|reflexivity|reflexivity]. }
  destruct (proj1 (C56_returns_only _ _ _ _ _ _ E _ Y) eq_refl).
Qed.
Definition flag_struct : xval := XStruct [(flagged, XBool true true)].
Example named_bool_meets : complete [flag_struct] (XPtr (Some 0%nat)) /\ (forall x, contains [flag_struct] (XPtr (Some 0%nat)) x -> ~ endless [flag_struct] x) /\
  contains [flag_struct] (XPtr (Some 0%nat)) flag_struct.
Proof.
  assert (C : forall x, contains [flag_struct] (XPtr (Some 0%nat)) x -> x = XPtr (Some 0%nat) \/ x = flag_struct \/ x = XBool true true).
  { intros x X. assert (H : forall v, contains [flag_struct] v x -> v = XPtr (Some 0%nat) \/ v = flag_struct \/ v = XBool true true -> x = XPtr (Some 0%nat) \/ x = flag_struct \/ x = XBool true true).
    { clear X. intros v X. induction X as [v|v p w x I _ IH]; [auto|]. intros D. apply IH. destruct D as [->|[->| ->]]; inversion I; subst; auto.
      - cbn in *. match goal with H : Some _ = Some _ |- _ => injection H as <- end. auto.
      - match goal with H : In _ _ |- _ => destruct H as [[= <- <-]|[]] end. auto. }
    eapply H; eauto. }
  split; [|split].
  - intros x X. destruct (C x X) as [->|[->| ->]]; [eexists; reflexivity|exact Logic.I..].
  - assert (T : forall k, tags [(flagged, XBool true true)] k = None).
    { intros k. unfold tags. cbn [map fst tag_of flagged plain fi_ignore fi_name fi_deprecated_by]. destruct (_ && _); reflexivity. }
    intros x X [E|(fs & k & -> & y & L & (z & Z & _) & _)].
    + assert (NB : forall y, ~ holds_directly [flag_struct] (XBool true true) y) by (intros y H; inversion H as [? ? I|? ? ? I]; inversion I).
      assert (NP : forall y, ~ inside [flag_struct] (XPtr (Some 0%nat)) None y) by (intros y I; inversion I).
      assert (NS : forall y, inside [flag_struct] flag_struct None y -> y = XBool true true).
      { intros y I. inversion I as [| | |fs0 k0 y0 J K1 K2| | |]; subst. destruct J as [[= <- <-]|[]]. reflexivity. }
      destruct (C x X) as [->|[->| ->]]; [inversion E as [? ? I|? w ? I J]; destruct (NP _ I)| |destruct (NB _ E)].
      inversion E as [? ? I|? w ? I J]; subst; apply NS in I; [discriminate I|subst w]. destruct (NB _ J).
    + destruct (C _ X) as [F|[F|F]]; try discriminate F. injection F as ->. rewrite T in Z. discriminate Z.
  - econstructor; [apply in_pointer; reflexivity|apply c_self].
Qed.
Example named_bool_panics : xmarshal true hd 5 [] (Some (XStruct [(flagged, XBool true true)])) = Panics.
Proof. reflexivity. Qed.
Example ignored_does_not : xmarshal true hd 5 [] (Some (XStruct [(ignored_flag, XBool true true); (plain (nm "a"), XBool false true)])) =
  Returns (JDict 0 [(nm "a", JBool true)]).
Proof. reflexivity. Qed.

(** m := map[string]interface{}{}; m["me"] = m: Marshal never ends.  Gotypes.v
    has no such maps; a map that contains a pointer to itself is one of C31's. *)
Definition own_map : xstore := [XMap (Some [(nm "me", XIface (Some (XShared 0%nat)))])].
Lemma own_map_holds : holds_directly own_map (XShared 0%nat) (XShared 0%nat).
Proof. eapply h_step; [apply in_shared; reflexivity|]. eapply h_step; [eapply in_map; left; reflexivity|]. apply h_one, in_iface. Qed.
Lemma own_map_contains x : contains own_map (XShared 0%nat) x ->
  x = XShared 0%nat \/ x = XMap (Some [(nm "me", XIface (Some (XShared 0%nat)))]) \/ x = XIface (Some (XShared 0%nat)).
Proof.
  assert (H : forall v, contains own_map v x -> v = XShared 0%nat \/ v = XMap (Some [(nm "me", XIface (Some (XShared 0%nat)))]) \/ v = XIface (Some (XShared 0%nat)) ->
    x = XShared 0%nat \/ x = XMap (Some [(nm "me", XIface (Some (XShared 0%nat)))]) \/ x = XIface (Some (XShared 0%nat))).
  { intros v C. induction C as [v|v p w x I _ IH]; [auto|]. intros D. apply IH. destruct D as [->|[->| ->]]; inversion I; subst; auto.
    - cbn in *. match goal with H : Some _ = Some _ |- _ => injection H as <- end. auto.
    - match goal with H : In _ _ |- _ => destruct H as [[= <- <-]|[]] end. auto. }
  intros C. eapply H; eauto.
Qed.
Theorem C56_own_map_refuted : exists st v, complete st v /\ (forall x, contains st v x -> ~ unmarshalable x) /\
  forall omit pick n, xmarshal omit pick n st (Some v) = Going.
Proof.
  exists own_map, (XShared 0%nat).
  assert (U : forall x, contains own_map (XShared 0%nat) x -> ~ unmarshalable x) by (intros x C; destruct (own_map_contains x C) as [->|[->| ->]]; exact (fun f => f)).
  split; [|split; [exact U|]].
  - intros x C. destruct (own_map_contains x C) as [->|[->| ->]]; [left; eexists; reflexivity|exact Logic.I..].
  - intros omit pick n. eapply C56_never_ends; [apply c_self|left; exact own_map_holds|exact U].
Qed.

(** A MarshalJSON that fails, or returns a text that Parse refuses. *)
Example bad_marshaler : unmarshalable (XStd None) /\ xmarshal true hd 5 [] (Some (XSlice (Some [XStd None]))) = Panics.
Proof. split; reflexivity || exact Logic.I. Qed.
Example bad_text : xmarshal true hd 5 [] (Some (XSlice (Some [XStd (Some (nm "[1"))]))) = Panics.
Proof. reflexivity. Qed.
Example good_text : xmarshal true hd 5 [] (Some (XSlice (Some [XStd (Some (nm "[1]"))]))) = Returns (JArray [JArray [JInt 1]]).
Proof. reflexivity. Qed.

(** A shared map without cycles, and what it stands for. *)
Definition shared_map : xstore := [XMap (Some [(nm "k", XInt (Signed 64) 7)])].
Example shared_twice : xmarshal true hd 5 shared_map (Some (XSlice (Some [XShared 0%nat; XShared 0%nat]))) =
  Returns (JArray [JDict 0 [(nm "k", JInt 7)]; JDict 0 [(nm "k", JInt 7)]]).
Proof. reflexivity. Qed.
Example shared_stands : Forall2 (stands shared_map) shared_map [GMap (Some [(nm "k", GInt (Signed 64) 7)])] /\
  stands shared_map (XShared 0%nat) (GMap (Some [(nm "k", GInt (Signed 64) 7)])).
Proof.
  assert (stands shared_map (XMap (Some [(nm "k", XInt (Signed 64) 7)])) (GMap (Some [(nm "k", GInt (Signed 64) 7)]))).
  { constructor. constructor; [split; [reflexivity|constructor]|constructor]. }
  split; [constructor; [assumption|constructor]|]. eapply st_shared; [reflexivity|assumption].
Qed.
