(** Marshal produces what SpecEncode asks for. *)
From Coq Require Import Sorting.Permutation Relations.Relation_Operators Wellfounded.Transitive_Closure.
From Verif Require Import Base Strconv SortedMap SortedMapFacts Json SpecJson Printer Heap Gotypes Marshal SpecMarshal SpecEncode HeapFacts2 MarshalFacts DepFacts.

(** ** What is left out *)

Section Enc.
Context (st : store) (omit : bool) (pick : list Z -> Z).
Context (Hpick : forall l, l <> [] -> In (pick l) l).

(** The values marshalValue is called on by a call on a value. *)
Inductive child : gval -> gval -> Prop :=
| C_slice l x : In x l -> child x (GSlice (Some l))
| C_array l x : In x l -> child x (GArray l)
| C_map m k x : In (k, x) m -> child x (GMap (Some m))
| C_field fs i x : In (i, x) fs -> fi_ignore i = false -> fi_deprecated_by i = None -> child x (GStruct fs)
| C_ptr a x : nth_error st a = Some x -> child x (GPtr (Some a))
| C_iface x : child x (GIface (Some x)).

Definition reach (u v : gval) : Prop := u = v \/ clos_trans gval child u v.

Lemma reach_refl v : reach v v.
Proof using. left. reflexivity. Qed.

Lemma reach_child u w v : reach u w -> child w v -> reach u v.
Proof using. intros [->|H] C; right; [apply t_step, C|]. eapply t_trans; [exact H|apply t_step, C]. Qed.

Lemma acc_irrefl {A} (R : A -> A -> Prop) x : Acc R x -> ~ R x x.
Proof using. induction 1 as [x _ IH]. intros H. exact (IH x H H). Qed.

Lemma dropped_acc i v : dropped st i v -> Acc child v.
Proof using.
  induction 1 as [i v N|i k z|i b x|i|i v _ E|i fs _ _ IH|i a x N _ IH|i x _ IH]; constructor; intros y C.
  - destruct v as [| | | | | |[l|]| |[m|]| |[a|]|[x|]| | | | |]; try destruct N; inversion C.
  - inversion C.
  - inversion C.
  - inversion C.
  - destruct v as [| | |s| |t|[l|]|l|[m|]| |[a|]|[x|]| | |j| |]; try destruct E; inversion C; subst;
      try (destruct l; [|destruct E]); try (destruct m; [|destruct E]); match goal with H : In _ [] |- _ => destruct H end.
  - inversion C as [| | |? i0 ? I0 E1 E2| |]; subst. exact (IH _ _ I0 E1 E2).
  - inversion C as [| | | |? y0 Ny|]; subst. rewrite N in Ny. injection Ny as <-. exact IH.
  - inversion C; subst. exact IH.
Qed.

Lemma no_cycle i a x : dropped st i (GPtr (Some a)) -> nth_error st a = Some x -> ~ reach (GPtr (Some a)) x.
Proof using.
  intros D N R. apply dropped_acc in D. apply Acc_clos_trans in D. apply (acc_irrefl _ _ D).
  destruct R as [R|R]; [rewrite R at 1; apply t_step, C_ptr, N|]. eapply t_trans; [exact R|]. apply t_step, C_ptr, N.
Qed.

Lemma dropped_ptr i a x : nth_error st a = Some x -> dropped st i (GPtr (Some a)) -> dropped st i x.
Proof using.
  intros N D. inversion D as [? ? C|? ? ? ?|? ? ? ?|? ?|? ? ? C|? ? ?|? ? y Ny Dy|? ?]; subst; [destruct C|destruct C|].
  rewrite N in Ny. injection Ny as <-. exact Dy.
Qed.

Lemma tr_find_miss t a : forall t', tr_find None t a = (t', None) -> t' = t.
Proof using.
  induction t as [|e t IH]; intros t' E; cbn [tr_find] in E; [injection E as <-; reflexivity|].
  destruct (Nat.eqb (te_addr e) a).
  - destruct (tr_find (Some (te_id e)) t a) as [t1 r] eqn:E1. injection E as _ ->.
    apply tr_find_spec in E1 as (_ & _ & _ & N). apply proj1 in N. destruct (N eq_refl) as [X _]. discriminate.
  - destruct (tr_find None t a) as [t1 r] eqn:E1. injection E as <- ->. rewrite (IH _ eq_refl). reflexivity.
Qed.

Definition off_trace (s : session) (v : gval) : Prop := forall a, In a (map te_addr (s_trace s)) -> ~ reach (GPtr (Some a)) v.

Lemma m_fields_dropped n : (forall s v i i' s' r, dropped st i' v -> off_trace s v -> mval st omit n s v i = Some (s', r) ->
    s_trace s' = s_trace s /\ (i = i' -> omit = true -> r = None)) ->
  forall fs s d s' ps d', (forall x w, In (x, w) fs -> fi_ignore x = false -> fi_deprecated_by x = None -> dropped st (Some x) w /\ off_trace s w) ->
  m_fields (mval st omit n) s fs d = Some (s', ps, d') -> s_trace s' = s_trace s /\ (omit = true -> ps = []).
Proof using.
  intros IH. induction fs as [|[x w] fs IHf]; intros s d s' ps d' H E; cbn [m_fields] in E; [injection E as <- <- _; auto|].
  destruct (fi_ignore x) eqn:Ig; [eapply IHf; [|exact E]; intros; apply H; [right|..]; assumption|].
  destruct (fi_deprecated_by x) eqn:Dp; [eapply IHf; [|exact E]; intros; apply H; [right|..]; assumption|].
  destruct (mval st omit n s w (Some x)) as [[s1 r]|] eqn:E1; [|discriminate].
  destruct (m_fields (mval st omit n) s1 fs d) as [[[s2 rs2] d2]|] eqn:E2; [|discriminate]. injection E as <- <- _.
  destruct (H x w (or_introl eq_refl) Ig Dp) as [D O]. destruct (IH _ _ _ _ _ _ D O E1) as [T R].
  destruct (IHf s1 d s2 rs2 d2) as [T2 R2]; [|exact E2|].
  - intros y u I1 I2 I3. destruct (H y u (or_intror I1) I2 I3) as [D1 O1]. split; [exact D1|]. unfold off_trace in *. rewrite T. exact O1.
  - split; [congruence|]. intros Om. rewrite (R eq_refl Om). auto.
Qed.

Lemma flag_has i p : has i p -> flag i p = true.
Proof using. intros (x & -> & H). exact H. Qed.
Lemma has_flag i p : flag i p = true -> has i p.
Proof using. destruct i as [x|]; [|discriminate]. intros H. exists x. auto. Qed.

Lemma dropped_trace n : forall s v i i' s' r, dropped st i' v -> off_trace s v -> mval st omit n s v i = Some (s', r) ->
  s_trace s' = s_trace s /\ (i = i' -> omit = true -> r = None).
Proof using.
  induction n as [|n IH]; intros s v i i' s' r D O E; [discriminate|]. cbn [mval] in E.
  inversion D as [? ? C|? ? z F C|? ? x F C|? F|? ? F C|? fs F C|? a x N C|? x C]; subst.
  - destruct v as [| | | |t| |[l|]| |[m|]| |[a|]|[x|]|[j|]|[j|]| | |]; try destruct C;
      try (injection E as <- <-; split; [reflexivity|]; intros _ ->; reflexivity).
    destruct t; [destruct C|]. injection E as <- <-; split; [reflexivity|]; intros _ ->; reflexivity.
  - assert (s' = s /\ r = marshal_int omit i (wrap (Signed 64) z)) as X by (split; congruence). destruct X as [-> ->]. split; [reflexivity|]. intros -> ->. unfold marshal_int. rewrite C, (flag_has _ _ F). reflexivity.
  - injection E as <- <-. split; [reflexivity|]. intros -> ->. unfold marshal_float. rewrite C, (flag_has _ _ F). reflexivity.
  - injection E as <- <-. split; [reflexivity|]. intros -> ->. unfold marshal_bool. rewrite (flag_has _ _ F). reflexivity.
  - assert (i = i' -> omit = true -> flag i fi_omit_empty && omit = true) as G by (intros -> ->; rewrite (flag_has _ _ F); reflexivity).
    destruct v as [b|k z|bit f|x|t|t|[l|]|l|[m|]|fs|[a|]|[x|]|[j|]|[j|]|j|j|]; try (exfalso; exact C).
    + destruct x; [|destruct C]. injection E as <- <-. split; [reflexivity|]. intros A B. simpl. rewrite (G A B). reflexivity.
    + destruct t; [destruct C|]. injection E as <- <-. split; [reflexivity|]. intros A B. simpl. rewrite (G A B). reflexivity.
    + destruct l; [|destruct C]. destruct (flag i fi_omit_empty && omit); injection E as <- <-; split; [reflexivity|auto|reflexivity|].
      intros A B. discriminate (G A B).
    + destruct l; [|destruct C]. destruct (flag i fi_omit_empty && omit); injection E as <- <-; split; [reflexivity|auto|reflexivity|].
      intros A B. discriminate (G A B).
    + destruct m; [|destruct C]. destruct (flag i fi_omit_empty && omit); injection E as <- <-; split; [reflexivity|auto|reflexivity|].
      intros A B. discriminate (G A B).
    + injection E as <- <-. split; [reflexivity|]. intros A B. unfold marshal_json_val.
      assert (json_empty j = true) as ->; [|cbn [andb]; rewrite (G A B); reflexivity].
      destruct j as [|[|]|z|f b|[|]|[|]|? [|]|]; try reflexivity; try (exfalso; exact C).
      * destruct z; [reflexivity|destruct C|destruct C].
      * exact C.
  - destruct (m_fields (mval st omit n) s fs []) as [[[s1 ps] dep]|] eqn:E1; [|discriminate].
    destruct (m_fields_dropped n IH fs s [] s1 ps dep) as [T P]; [|exact E1|].
    { intros y w I1 I2 I3. split; [exact (C y w I1 I2 I3)|]. intros a Ia R. apply (O a Ia). eapply reach_child; [exact R|]. econstructor; eassumption. }
    destruct (dep_pairs n dep dep ps) as [dps|] eqn:E2; [|discriminate].
    assert (s' = s1) as -> by (destruct (ps ++ dps); [destruct (flag i fi_omit_empty && omit)|]; injection E as <- _; reflexivity).
    split; [exact T|]. intros -> Om. rewrite (P Om) in *.
    assert (forall todo dps, dep_pairs n dep todo [] = Some dps -> dps = []) as DP.
    { induction todo as [|[k0 k1] todo IHt]; intros q Q; cbn [dep_pairs] in Q; [injection Q as <-; reflexivity|].
      destruct (dep_resolve n dep k0 k1) as [z|]; [|discriminate]. destruct (dep_pairs n dep todo []) as [rest|]; [|discriminate].
      destruct z; injection Q as <-; apply IHt; reflexivity. }
    rewrite (DP _ _ E2) in E. cbn [app] in E. rewrite (flag_has _ _ F), Om in E. injection E as <-. reflexivity.
  - destruct (tr_find None (s_trace s) a) as [t [id|]] eqn:F.
    + exfalso. destruct (tr_find_spec _ _ _ _ _ F) as (_ & _ & R & _). destruct (R id eq_refl) as [X|(e & Ie & Ea & _)]; [discriminate|].
      apply (O a); [|apply reach_refl]. rewrite <- Ea. apply in_map, Ie.
    + apply tr_find_miss in F as ->. cbn in E. rewrite N in E.
      match type of E with match mval _ _ _ ?s1 _ _ with _ => _ end = _ => destruct (mval st omit n s1 x i) as [[s2 r2]|] eqn:E1; [|discriminate] end.
      injection E as <- <-. match type of E1 with mval _ _ _ ?s1 _ _ = _ => assert (off_trace s1 x) as OT end.
      * intros b Ib. simpl in Ib. rewrite map_app in Ib. apply in_app_or in Ib as [Ib|[<-|[]]].
        -- intros R. apply (O b Ib). eapply reach_child; [exact R|]. apply C_ptr, N.
        -- simpl. eapply no_cycle; [exact D|exact N].
      * destruct (IH _ _ _ _ _ _ C OT E1) as [T R].
        simpl. rewrite T. simpl. rewrite tr_pop_last. simpl. split; [reflexivity|]. intros A B. rewrite (R A B). reflexivity.
  - eapply IH; [exact C| |exact E]. intros a Ia R. apply (O a Ia). eapply reach_child; [exact R|]. constructor.
Qed.

(** Nothing else is left out. *)
Lemma m_fields_none n : (forall s v i s', mval st omit n s v i = Some (s', None) -> omit = true /\ dropped st i v) ->
  forall fs s d s' d', m_fields (mval st omit n) s fs d = Some (s', [], d') ->
  forall x w, In (x, w) fs -> fi_ignore x = false -> fi_deprecated_by x = None -> dropped st (Some x) w.
Proof using.
  intros IH. induction fs as [|[y u] fs IHf]; intros s d s' d' E x w I Ig Dp; [destruct I|]. cbn [m_fields] in E.
  destruct I as [I|I].
  - injection I as -> ->. rewrite Ig, Dp in E.
    destruct (mval st omit n s w (Some x)) as [[s1 r]|] eqn:E1; [|discriminate].
    destruct (m_fields (mval st omit n) s1 fs d) as [[[s2 rs2] d2]|] eqn:E2; [|discriminate].
    destruct r as [r|]; [discriminate|]. eapply IH, E1.
  - destruct (fi_ignore y); [eapply IHf; eassumption|]. destruct (fi_deprecated_by y); [eapply IHf; eassumption|].
    destruct (mval st omit n s u (Some y)) as [[s1 r]|] eqn:E1; [|discriminate].
    destruct (m_fields (mval st omit n) s1 fs d) as [[[s2 rs2] d2]|] eqn:E2; [|discriminate].
    destruct r as [r|]; [discriminate|]. injection E as <- -> <-. eapply IHf; eassumption.
Qed.

Lemma finish_some i m : finish_container i m <> None.
Proof using. unfold finish_container. destruct (flag i fi_force_string); discriminate. Qed.

Lemma none_dropped n : forall s v i s', mval st omit n s v i = Some (s', None) -> omit = true /\ dropped st i v.
Proof using.
  induction n as [|n IH]; intros s v i s' E; [discriminate|]. cbn [mval] in E.
  assert (forall (o : option mj), Some (s, o) = Some (s', None) -> o = None) as P by (intros o X; congruence).
  assert (forall b : bool, (if b then true else false) = true -> b = true) as Q by (intros []; auto).
  assert (nil_or_null omit = None -> omit = true) as NN by (unfold nil_or_null; destruct omit; [reflexivity|discriminate]).
  destruct v as [b|k z|bit f|x|t|t|[l|]|l|[m|]|fs|[a|]|[x|]|[j|]|[j|]|j|j|];
    try (apply P in E; apply NN in E; split; [exact E|apply D_nil; exact I]).
  - apply P in E. unfold marshal_bool in E. destruct (negb b && flag i fi_omit_false && omit) eqn:C; [|destruct (flag i fi_force_string); discriminate].
    apply andb_true_iff in C as [C O0]. apply andb_true_iff in C as [C C2]. destruct b; [discriminate|]. split; [exact O0|]. apply D_bool, has_flag, C2.
  - apply P in E. unfold marshal_int in E. destruct ((wrap (Signed 64) z =? 0) && flag i fi_omit_zero && omit) eqn:C; [|destruct (flag i fi_force_string); discriminate].
    apply andb_true_iff in C as [C O0]. apply andb_true_iff in C as [C C2]. split; [exact O0|]. apply D_int; [apply has_flag, C2|]. apply Z.eqb_eq, C.
  - apply P in E. unfold marshal_float in E. destruct (fl_is_zero f && flag i fi_omit_zero && omit) eqn:C; [|destruct (flag i fi_force_string); discriminate].
    apply andb_true_iff in C as [C O0]. apply andb_true_iff in C as [C C2]. split; [exact O0|]. apply D_float; [apply has_flag, C2|exact C].
  - apply P in E. destruct x; [|discriminate]. simpl in E. destruct (flag i fi_omit_empty && omit) eqn:C; [|discriminate].
    apply andb_true_iff in C as [C O0]. split; [exact O0|]. apply D_empty; [apply has_flag, C|exact I].
  - apply P in E. destruct t as [b|]; [discriminate|]. apply NN in E. split; [exact E|apply D_nil; exact I].
  - apply P in E. destruct t; [discriminate|]. simpl in E. destruct (flag i fi_omit_empty && omit) eqn:C; [|discriminate].
    apply andb_true_iff in C as [C O0]. split; [exact O0|]. apply D_empty; [apply has_flag, C|exact I].
  - destruct l as [|x l].
    + destruct (flag i fi_omit_empty && omit) eqn:C; [|apply P in E; destruct (finish_some _ _ E)].
      apply andb_true_iff in C as [C O0]. split; [exact O0|]. apply D_empty; [apply has_flag, C|exact I].
    + destruct (m_elems (mval st omit n) s (x :: l)) as [[s1 rs]|]; [|discriminate]. exfalso. eapply (finish_some i (MArr rs)). congruence.
  - destruct l as [|x l].
    + destruct (flag i fi_omit_empty && omit) eqn:C; [|apply P in E; destruct (finish_some _ _ E)].
      apply andb_true_iff in C as [C O0]. split; [exact O0|]. apply D_empty; [apply has_flag, C|exact I].
    + destruct (m_elems (mval st omit n) s (x :: l)) as [[s1 rs]|]; [|discriminate]. exfalso. eapply (finish_some i (MArr rs)). congruence.
  - destruct m as [|x m].
    + destruct (flag i fi_omit_empty && omit) eqn:C; [|apply P in E; destruct (finish_some _ _ E)].
      apply andb_true_iff in C as [C O0]. split; [exact O0|]. apply D_empty; [apply has_flag, C|exact I].
    + destruct (m_members (mval st omit n) s (x :: m)) as [[s1 rs]|]; [|discriminate]. exfalso. eapply (finish_some i (new_dict rs)). congruence.
  - destruct (m_fields (mval st omit n) s fs []) as [[[s1 ps] dep]|] eqn:E1; [|discriminate].
    destruct (dep_pairs n dep dep ps) as [dps|] eqn:E2; [|discriminate].
    destruct (ps ++ dps) as [|p0 all] eqn:E3; [|exfalso; eapply (finish_some i (new_dict (p0 :: all))); congruence].
    destruct (flag i fi_omit_empty && omit) eqn:C; [|exfalso; eapply (finish_some i (new_dict [])); congruence].
    apply andb_true_iff in C as [C O0]. split; [exact O0|]. apply app_eq_nil in E3 as [-> _].
    apply D_struct; [apply has_flag, C|]. eapply m_fields_none; [|exact E1]. exact IH.
  - destruct (tr_find None (s_trace s) a) as [t [id|]] eqn:F; [discriminate|]. cbn in E.
    destruct (nth_error st a) as [x|] eqn:N; [|discriminate].
    match type of E with match mval _ _ _ ?s1 _ _ with _ => _ end = _ => destruct (mval st omit n s1 x i) as [[s2 r2]|] eqn:E1; [|discriminate] end.
    destruct r2 as [m|]; [destruct m; discriminate|]. apply IH in E1 as [O D]. split; [exact O|]. eapply D_ptr; eassumption.
  - apply IH in E as [O D]. split; [exact O|]. apply D_iface, D.
  - discriminate.
  - discriminate.
  - apply P in E. unfold marshal_json_val in E. destruct (json_empty j && flag i fi_omit_empty && omit) eqn:C; [|discriminate].
    apply andb_true_iff in C as [C O0]. apply andb_true_iff in C as [C C2]. split; [exact O0|]. apply D_empty; [apply has_flag, C2|].
    destruct j as [|[|]|z|f b|[|]|[|]|? [|]|]; try exact I; try discriminate C.
    + simpl in C. apply Z.eqb_eq in C as ->. exact I.
    + exact C.
  - discriminate.
  - discriminate.
Qed.
End Enc.
