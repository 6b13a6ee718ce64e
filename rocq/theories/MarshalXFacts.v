(** Marshal with panics: when it panics, when it returns, and that it then
    returns what Marshal.v says. *)
From Verif Require Import Base Strconv SortedMap SortedMapFacts Json SpecJson SpecLenient Printer Parser Heap Gotypes Marshal SpecMarshal MarshalX SpecMarshalPanic
  MarshalFacts DepFacts MarshalFinal PropParse PropLenient PropRefuse.

Lemma std_cases s t :
  (exists j n, lenient_text t j n /\ marshal_std s (Some t) = Returns (s, Some (MLeaf j))) \/
  ((~ exists v n, lenient_text t v n) /\ marshal_std s (Some t) = Panics).
Proof.
  unfold marshal_std. pose proof (C05_bounds t 0 ltac:(lia)) as T. fold (Parse t) in T. destruct (Parse t) as [j n|e n|p|] eqn:P; [| | |contradiction].
  - left. exists j, n. split; [apply C54_language, P|reflexivity].
  - right. split; [|reflexivity]. intros (v & m & L). apply C54_language in L. congruence.
  - right. split; [|reflexivity]. intros (v & m & L). apply C54_language in L. congruence.
Qed.
Lemma std_returns s t r : marshal_std s t = Returns r -> ~ unmarshalable (XStd t) /\ fst r = s.
Proof.
  destruct t as [t|]; [|discriminate]. destruct (std_cases s t) as [(j & n & L & E)|(B & E)]; rewrite E; [|discriminate].
  intros [= <-]. split; [|reflexivity]. cbn. intros N. apply N. eauto.
Qed.
Lemma std_panics s t : marshal_std s t = Panics <-> unmarshalable (XStd t).
Proof.
  destruct t as [t|]; [|split; reflexivity || (intros; exact Logic.I)]. destruct (std_cases s t) as [(j & n & L & E)|(B & E)]; rewrite E; cbn.
  - split; [discriminate|]. intros N. exfalso. apply N. eauto.
  - split; auto.
Qed.

Section Panic.
Context (st : xstore) (omit : bool).
Notation inside := (inside st).
Notation contains := (contains st).

(** ** It panics only at a value that it cannot handle *)

Definition to_trouble (mv : session -> xval -> option finfo -> run (session * option mj)) : Prop :=
  forall s v i, mv s v i = Panics -> exists x, contains v x /\ unmarshalable x.

Lemma x_elems_panic mv l : to_trouble mv -> forall s, x_elems mv s l = Panics -> exists w x, In w l /\ contains w x /\ unmarshalable x.
Proof using.
  intros H. induction l as [|v l IH]; intros s E; cbn [x_elems] in E; [discriminate|].
  destruct (mv s v None) as [| |[s1 r]] eqn:E1; cbn [after] in E; [discriminate| |].
  - destruct (H _ _ _ E1) as (x & C & U). exists v, x. split; [left; reflexivity|auto].
  - destruct (x_elems mv s1 l) as [| |[s2 rs]] eqn:E2; cbn [after] in E; try discriminate.
    destruct (IH _ E2) as (w & x & I & R). exists w, x. split; [right; exact I|exact R].
Qed.
Lemma x_members_panic mv (l : list (bytes * xval)) : to_trouble mv -> forall s, x_members mv s l = Panics -> exists k w x, In (k, w) l /\ contains w x /\ unmarshalable x.
Proof using.
  intros H. induction l as [|[k v] l IH]; intros s E; cbn [x_members] in E; [discriminate|].
  destruct (mv s v None) as [| |[s1 r]] eqn:E1; cbn [after] in E; [discriminate| |].
  - destruct (H _ _ _ E1) as (x & C & U). exists k, v, x. split; [left; reflexivity|auto].
  - destruct (x_members mv s1 l) as [| |[s2 rs]] eqn:E2; cbn [after] in E; try discriminate.
    destruct (IH _ E2) as (k' & w & x & I & R). exists k', w, x. split; [right; exact I|exact R].
Qed.
Lemma x_fields_panic mv (l : list (finfo * xval)) : to_trouble mv -> forall s d, x_fields mv s l d = Panics ->
  exists k w x, In (k, w) l /\ fi_ignore k = false /\ fi_deprecated_by k = None /\ contains w x /\ unmarshalable x.
Proof using.
  intros H. induction l as [|[k v] l IH]; intros s d E; cbn [x_fields] in E; [discriminate|].
  assert (R : forall s d, x_fields mv s l d = Panics -> exists k0 w x, In (k0, w) ((k, v) :: l) /\ fi_ignore k0 = false /\ fi_deprecated_by k0 = None /\ contains w x /\ unmarshalable x).
  { intros s0 d0 E0. destruct (IH _ _ E0) as (k' & w & x & I & R). exists k', w, x. split; [right; exact I|exact R]. }
  destruct (fi_ignore k) eqn:K1; [eauto|]. destruct (fi_deprecated_by k) eqn:K2; [eauto|].
  destruct (mv s v (Some k)) as [| |[s1 r]] eqn:E1; cbn [after] in E; [discriminate| |].
  - destruct (H _ _ _ E1) as (x & C & U). exists k, v, x. split; [left; reflexivity|auto].
  - destruct (x_fields mv s1 l d) as [| |[[s2 rs] d2]] eqn:E2; cbn [after] in E; try discriminate. eauto.
Qed.

Lemma xmval_panic n : to_trouble (xmval st omit n).
Proof using.
  induction n as [|n IH]; intros s v i E; [discriminate|]. cbn [xmval] in E.
  assert (SL : forall l, match l with
          | [] => if flag i fi_omit_empty && omit then Returns (s, None) else Returns (s, finish_container i (MArr []))
          | _ => after (x_elems (xmval st omit n) s l) (fun '(s1, rs) => Returns (s1, finish_container i (MArr rs)))
          end = Panics -> exists w x, In w l /\ contains w x /\ unmarshalable x).
  { intros [|x l] X; [destruct (flag i fi_omit_empty && omit); discriminate|].
    destruct (x_elems (xmval st omit n) s (x :: l)) as [| |[s1 rs]] eqn:E1; cbn [after] in X; try discriminate. eapply x_elems_panic; eassumption. }
  destruct v as [[] b|k z|bit f|x|t|t|[l|]|l|[q|]|fs|[a|]|[x|]|[j|]|[j|]|j|t|a|]; try discriminate.
  - eexists. split; [constructor|reflexivity].
  - destruct (SL _ E) as (w & x & I & C & U). exists x. split; [|exact U]. econstructor; [apply in_slice, I|exact C].
  - destruct (SL _ E) as (w & x & I & C & U). exists x. split; [|exact U]. econstructor; [apply in_array, I|exact C].
  - destruct q as [|x q]; [destruct (flag i fi_omit_empty && omit); discriminate|].
    destruct (x_members (xmval st omit n) s (x :: q)) as [| |[s1 rs]] eqn:E1; cbn [after] in E; try discriminate.
    destruct (x_members_panic _ _ IH _ E1) as (k & w & y & I & C & U). exists y. split; [|exact U]. econstructor; [eapply in_map, I|exact C].
  - destruct (x_fields (xmval st omit n) s fs []) as [| |[[s1 ps] dep]] eqn:E1; cbn [after] in E; try discriminate.
    + destruct (x_fields_panic _ _ IH _ _ E1) as (k & w & y & I & K1 & K2 & C & U). exists y. split; [|exact U]. econstructor; [eapply in_field; eassumption|exact C].
    + destruct (dep_pairs n dep dep ps) as [dps|]; [|discriminate]. destruct (ps ++ dps); [destruct (flag i fi_omit_empty && omit)|]; discriminate.
  - destruct (tr_find None (s_trace s) a) as [t [id|]]; [discriminate|]. cbn in E. destruct (nth_error st a) as [x|] eqn:N; [|discriminate].
    match type of E with after ?r _ = _ => destruct r as [| |[s2 r2]] eqn:E1; cbn [after] in E; try discriminate end.
    destruct (IH _ _ _ E1) as (y & C & U). exists y. split; [|exact U]. econstructor; [apply in_pointer, N|exact C].
  - destruct (IH _ _ _ E) as (y & C & U). exists y. split; [|exact U]. econstructor; [apply in_iface|exact C].
  - apply std_panics in E. eexists. split; [constructor|exact E].
  - destruct (nth_error st a) as [x|] eqn:N; [|discriminate].
    assert (E' : xmval st omit n s x i = Panics) by (destruct x as [| | | | | |[]| |[]| | | | | | | | |]; try discriminate E; exact E).
    destruct (IH _ _ _ E') as (y & C & U). exists y. split; [|exact U]. econstructor; [apply in_shared, N|exact C].
Qed.

(** ** It returns only if it meets no such value *)

(** [U]: what keeps a call from returning. *)
Context (U : xval -> Prop) (HU : forall n s v i r, xmval st omit n s v i = Returns r -> ~ U v).

(** Such a value is inside, on a path that follows none of
    the pointers [R]. *)
Inductive trouble_past (R : list addr) : xval -> Prop :=
| tp_here v : U v -> trouble_past R v
| tp_step v p w : inside v p w -> (forall a, p = Some a -> ~ In a R) -> trouble_past R w -> trouble_past R v.

Lemma trouble_all v x : contains v x -> U x -> trouble_past [] v.
Proof using.
  induction 1 as [v|v p w x I _ IH]; intros Ux; [apply tp_here, Ux|]. eapply tp_step; [exact I|intros a _ []|auto].
Qed.
Lemma trouble_less R R' v : incl R R' -> trouble_past R' v -> trouble_past R v.
Proof using.
  intros L. induction 1 as [v Ux|v p w I A _ IH]; [apply tp_here, Ux|]. eapply tp_step; [exact I| |exact IH]. intros a E Ia. apply (A a E), L, Ia.
Qed.
(** It gets past [Q] as well, or leads on from one of [Q]. *)
Lemma trouble_cut R Q v : trouble_past R v ->
  trouble_past Q v \/ exists a w, In a Q /\ ~ In a R /\ nth_error st a = Some w /\ trouble_past R w.
Proof using.
  induction 1 as [v Ux|v p w I A T [IH|IH]]; [left; apply tp_here, Ux| |right; exact IH].
  destruct p as [a|]; [|left; eapply tp_step; [exact I|discriminate|exact IH]].
  destruct (in_dec Nat.eq_dec a Q) as [Ia|Ia].
  - right. exists a, w. inversion I; subst. auto.
  - left. eapply tp_step; [exact I|intros b [= <-]; exact Ia|exact IH].
Qed.
(** The last time that the path follows [a]. *)
Lemma trouble_last R a v : trouble_past R v -> trouble_past (a :: R) v \/ exists w, nth_error st a = Some w /\ trouble_past (a :: R) w.
Proof using.
  induction 1 as [v Ux|v p w I A T [IH|IH]]; [left; apply tp_here, Ux| |right; exact IH].
  destruct p as [b|]; [|left; eapply tp_step; [exact I|discriminate|exact IH]].
  destruct (Nat.eq_dec a b) as [<-|Nb].
  - right. exists w. inversion I; subst. auto.
  - left. eapply tp_step; [exact I| |exact IH]. intros c [= <-] [E|E]; [congruence|]. exact (A b eq_refl E).
Qed.

Definition addrs (s : session) : list addr := map te_addr (s_trace s).

(** From the pointers that were added to the trace nothing bad is reached. *)
Definition clean (s s' : session) : Prop :=
  forall a w, In a (addrs s') -> ~ In a (addrs s) -> nth_error st a = Some w -> ~ trouble_past (addrs s) w.
Definition returns_clean (mv : session -> xval -> option finfo -> run (session * option mj)) : Prop :=
  forall s v i s' r, mv s v i = Returns (s', r) -> ~ trouble_past (addrs s) v /\ clean s s'.

Lemma clean_refl s s' : incl (addrs s') (addrs s) -> clean s s'.
Proof using. intros L a w Ia N. destruct (N (L _ Ia)). Qed.
Lemma clean_step s s1 v : clean s s1 -> ~ trouble_past (addrs s1) v -> ~ trouble_past (addrs s) v.
Proof using.
  intros C N T. destruct (trouble_cut _ (addrs s1) _ T) as [H|(a & w & Ia & Na & E & H)]; [exact (N H)|]. exact (C a w Ia Na E H).
Qed.
Lemma clean_trans s s1 s2 : clean s s1 -> clean s1 s2 -> clean s s2.
Proof using.
  intros C1 C2 a w Ia Na E. destruct (in_dec Nat.eq_dec a (addrs s1)) as [I1|I1]; [apply (C1 a w); assumption|].
  eapply clean_step; [exact C1|]. apply (C2 a w); assumption.
Qed.

Lemma x_elems_clean mv l : returns_clean mv -> forall s s' rs, x_elems mv s l = Returns (s', rs) -> Forall (fun v => ~ trouble_past (addrs s) v) l /\ clean s s'.
Proof using.
  intros H. induction l as [|v l IH]; intros s s' rs E; cbn [x_elems] in E.
  { injection E as <- <-. split; [constructor|apply clean_refl, incl_refl]. }
  destruct (mv s v None) as [| |[s1 r]] eqn:E1; cbn [after] in E; try discriminate.
  destruct (x_elems mv s1 l) as [| |[s2 rs2]] eqn:E2; cbn [after] in E; try discriminate. injection E as <- <-.
  destruct (H _ _ _ _ _ E1) as [A1 C1], (IH _ _ _ E2) as [A2 C2]. split; [|eapply clean_trans; eassumption].
  constructor; [exact A1|]. eapply Forall_impl; [|exact A2]. intros x. apply clean_step, C1.
Qed.
Lemma x_members_clean mv (l : list (bytes * xval)) : returns_clean mv -> forall s s' rs, x_members mv s l = Returns (s', rs) ->
  Forall (fun kv => ~ trouble_past (addrs s) (snd kv)) l /\ clean s s'.
Proof using.
  intros H. induction l as [|[k v] l IH]; intros s s' rs E; cbn [x_members] in E.
  { injection E as <- <-. split; [constructor|apply clean_refl, incl_refl]. }
  destruct (mv s v None) as [| |[s1 r]] eqn:E1; cbn [after] in E; try discriminate.
  destruct (x_members mv s1 l) as [| |[s2 rs2]] eqn:E2; cbn [after] in E; try discriminate. injection E as <- <-.
  destruct (H _ _ _ _ _ E1) as [A1 C1], (IH _ _ _ E2) as [A2 C2]. split; [|eapply clean_trans; eassumption].
  constructor; [exact A1|]. eapply Forall_impl; [|exact A2]. intros x. apply clean_step, C1.
Qed.
Lemma x_fields_clean mv (l : list (finfo * xval)) : returns_clean mv -> forall s d s' rs d', x_fields mv s l d = Returns (s', rs, d') ->
  Forall (fun kv => fi_ignore (fst kv) = false -> fi_deprecated_by (fst kv) = None -> ~ trouble_past (addrs s) (snd kv)) l /\ clean s s'.
Proof using.
  intros H. induction l as [|[k v] l IH]; intros s d s' rs d' E; cbn [x_fields] in E.
  { injection E as <- <-. split; [constructor|apply clean_refl, incl_refl]. }
  destruct (fi_ignore k) eqn:K1. { destruct (IH _ _ _ _ _ E) as [A C]. split; [|exact C]. constructor; [cbn; congruence|exact A]. }
  destruct (fi_deprecated_by k) eqn:K2. { destruct (IH _ _ _ _ _ E) as [A C]. split; [|exact C]. constructor; [cbn; congruence|exact A]. }
  destruct (mv s v (Some k)) as [| |[s1 r]] eqn:E1; cbn [after] in E; try discriminate.
  destruct (x_fields mv s1 l d) as [| |[[s2 rs2] d2]] eqn:E2; cbn [after] in E; try discriminate. injection E as <- <- <-.
  destruct (H _ _ _ _ _ E1) as [A1 C1], (IH _ _ _ _ _ E2) as [A2 C2]. split; [|eapply clean_trans; eassumption].
  constructor; [intros _ _; exact A1|]. eapply Forall_impl; [|exact A2]. cbn. intros x X Y Z. eapply clean_step; [exact C1|auto].
Qed.

Lemma tr_pop_addrs t : incl (map te_addr (tr_pop t)) (map te_addr t).
Proof using.
  induction t as [|e t IH]; [apply incl_refl|]. cbn [tr_pop]. destruct t as [|e' t].
  - destruct (te_cnt e =? 1); [intros x []|apply incl_refl].
  - cbn [map]. intros x [<-|I]; [left; reflexivity|right; apply IH, I].
Qed.

Lemma xmval_clean n : returns_clean (xmval st omit n).
Proof using HU.
  induction n as [|n IH]; intros s v i s' r E; [discriminate|]. pose proof (HU _ _ _ _ _ E) as NU. cbn [xmval] in E.
  assert (K : forall P : Prop, addrs s' = addrs s -> (forall p w, ~ inside v p w) -> ~ trouble_past (addrs s) v /\ clean s s').
  { intros _ Es I. split; [|apply clean_refl; rewrite Es; apply incl_refl]. intros T. inversion T; subst; [contradiction|]. eapply I. eassumption. }
  assert (SL : forall l, (forall w, inside v None w <-> In w l) -> (forall p w, inside v p w -> p = None) -> match l with
          | [] => if flag i fi_omit_empty && omit then Returns (s, None) else Returns (s, finish_container i (MArr []))
          | _ => after (x_elems (xmval st omit n) s l) (fun '(s1, rs) => Returns (s1, finish_container i (MArr rs)))
          end = Returns (s', r) -> ~ trouble_past (addrs s) v /\ clean s s').
  { intros l L1 L2 X. assert (X' : exists rs, x_elems (xmval st omit n) s l = Returns (s', rs)).
    { destruct l as [|x l]; [destruct (flag i fi_omit_empty && omit); injection X as <- <-; exists []; reflexivity|].
      destruct (x_elems (xmval st omit n) s (x :: l)) as [| |[s1 rs]] eqn:E1; cbn [after] in X; try discriminate. injection X as <- <-. eauto. }
    destruct X' as (rs & X'). destruct (x_elems_clean _ _ IH _ _ _ X') as [A C]. split; [|exact C].
    intros T. inversion T as [? B|? p w I P T']; subst; [contradiction|]. rewrite (L2 _ _ I) in I. apply L1 in I. rewrite Forall_forall in A. exact (A _ I T'). }
  destruct v as [[] b|k z|bit f|x|t|t|[l|]|l|[q|]|fs|[a|]|[x|]|[j|]|[j|]|j|t|a|]; try discriminate E;
    try solve [injection E as <- <-; apply (K True); [reflexivity|intros p w I; inversion I]].
  - apply (SL l); try exact E; auto; [split; [intros I; inversion I; auto|apply in_slice]|intros p w I; inversion I; reflexivity].
  - apply (SL l); try exact E; auto; [split; [intros I; inversion I; auto|apply in_array]|intros p w I; inversion I; reflexivity].
  - assert (X' : exists rs, x_members (xmval st omit n) s q = Returns (s', rs)).
    { destruct q as [|x q]; [destruct (flag i fi_omit_empty && omit); injection E as <- <-; exists []; reflexivity|].
      destruct (x_members (xmval st omit n) s (x :: q)) as [| |[s1 rs]] eqn:E1; cbn [after] in E; try discriminate. injection E as <- <-. eauto. }
    destruct X' as (rs & X'). destruct (x_members_clean _ _ IH _ _ _ X') as [A C]. split; [|exact C].
    intros T. inversion T as [? B|? p w I P T']; subst; [contradiction|]. inversion I as [| |? k ? Ik| | | |]; subst. rewrite Forall_forall in A. exact (A _ Ik T').
  - assert (X' : exists rs d, x_fields (xmval st omit n) s fs [] = Returns (s', rs, d)).
    { destruct (x_fields (xmval st omit n) s fs []) as [| |[[s1 ps] dep]] eqn:E1; cbn [after] in E; try discriminate.
      destruct (dep_pairs n dep dep ps) as [dps|]; [|discriminate]. exists ps, dep.
      assert (s1 = s') as -> by (destruct (ps ++ dps); [destruct (flag i fi_omit_empty && omit)|]; congruence). reflexivity. }
    destruct X' as (rs & d & X'). destruct (x_fields_clean _ _ IH _ _ _ _ _ X') as [A C]. split; [|exact C].
    intros T. inversion T as [? B|? p w I P T']; subst; [contradiction|]. inversion I as [| | |? k ? Ik K1 K2| | |]; subst. rewrite Forall_forall in A. exact (A _ Ik K1 K2 T').
  - destruct (tr_find None (s_trace s) a) as [t [id|]] eqn:F; destruct (tr_find_spec _ _ _ _ _ F) as (BA & _ & R & _); apply bumped_addrs in BA.
    { injection E as <- <-. split; [|apply clean_refl; unfold addrs; cbn [s_trace]; rewrite BA; apply incl_refl].
      destruct (R id eq_refl) as [X|(e & Ie & Ea & _)]; [discriminate|]. assert (Ia : In a (addrs s)) by (apply in_map_iff; eauto).
      intros T. inversion T as [? B|? p w I P T']; subst; [contradiction|]. inversion I; subst. exact (P _ eq_refl Ia). }
    cbn in E. destruct (nth_error st a) as [x|] eqn:N; [|discriminate].
    match type of E with after (xmval _ _ _ ?s1 _ _) _ = _ => set (s1' := s1) in * end.
    destruct (xmval st omit n s1' x i) as [| |[s2 r2]] eqn:E1; cbn [after] in E; try discriminate. injection E as <- <-.
    destruct (IH _ _ _ _ _ E1) as [A C]. assert (EA : addrs s1' = addrs s ++ [a]) by (unfold s1', addrs; cbn [s_trace]; rewrite map_app, BA; reflexivity).
    assert (L : incl (addrs s1') (a :: addrs s)) by (rewrite EA; intros y Iy; apply in_app_or in Iy as [Iy|[<-|[]]]; [right; exact Iy|left; reflexivity]).
    assert (X : ~ trouble_past (addrs s) x).
    { intros T. destruct (trouble_last _ a _ T) as [T1|(w & Nw & T1)]; [|assert (w = x) as -> by congruence]; apply A; eapply trouble_less; eassumption. }
    split.
    + intros T. inversion T as [? B|? p w I P T']; subst; [contradiction|]. inversion I; subst. assert (w = x) as -> by congruence. contradiction.
    + intros b w Ib Nb Ew T. assert (Ib2 : In b (addrs s2)) by (apply tr_pop_addrs, Ib).
      destruct (Nat.eq_dec b a) as [->|Nba]; [assert (w = x) as -> by congruence; contradiction|].
      destruct (trouble_last _ a _ T) as [T1|(w' & Nw & T1)]; [|assert (w' = x) as -> by congruence; apply A; eapply trouble_less; eassumption].
      apply (C b w Ib2); [|exact Ew|eapply trouble_less; eassumption]. rewrite EA. intros Y. apply in_app_or in Y as [Y|[<-|[]]]; auto.
  - destruct (IH _ _ _ _ _ E) as [A C]. split; [|exact C]. intros T. inversion T as [? B|? p w I P T']; subst; [contradiction|]. inversion I; subst. contradiction.
  - destruct (std_returns _ _ _ E) as [A Es]. cbn in Es. subst. split; [|apply clean_refl, incl_refl]. intros T. inversion T as [? B|? p w I P T']; subst; [contradiction|]. inversion I.
  - destruct (nth_error st a) as [x|] eqn:N; [|discriminate].
    assert (E' : xmval st omit n s x i = Returns (s', r)) by (destruct x as [| | | | | |[]| |[]| | | | | | | | |]; try discriminate E; exact E).
    destruct (IH _ _ _ _ _ E') as [A C]. split; [|exact C]. intros T. inversion T as [? B|? p w I P T']; subst; [contradiction|]. inversion I; subst. assert (w = x) as -> by congruence. contradiction.
Qed.
End Panic.

(** ** Otherwise it is Marshal *)

Lemma forall2_nth {A B} (R : A -> B -> Prop) l l' : Forall2 R l l' -> forall a x, nth_error l a = Some x -> exists y, nth_error l' a = Some y /\ R x y.
Proof. induction 1 as [|u v l l' S _ IH]; intros [|a] x E; try discriminate; cbn in *; [injection E as <-; eauto|auto]. Qed.
Lemma forall2_nth_back {A B} (R : A -> B -> Prop) l l' : Forall2 R l l' -> forall a y, nth_error l' a = Some y -> exists x, nth_error l a = Some x /\ R x y.
Proof. induction 1 as [|u v l l' S _ IH]; intros [|a] y E; try discriminate; cbn in *; [injection E as <-; eauto|auto]. Qed.

Section Agree.
Context (st : xstore) (gs : store) (omit : bool) (Hst : Forall2 (stands st) st gs).
Notation stands := (stands st).

Lemma stands_cell a x : nth_error st a = Some x -> exists g, nth_error gs a = Some g /\ stands x g.
Proof using Hst.
  intros E. eapply forall2_nth; eassumption.
Qed.
Lemma stands_cell_back a g : nth_error gs a = Some g -> exists x, nth_error st a = Some x /\ stands x g.
Proof using Hst.
  intros E. eapply forall2_nth_back; eassumption.
Qed.

(** What it returns. *)
Definition agrees (xv : session -> xval -> option finfo -> run (session * option mj)) (mv : session -> gval -> option finfo -> option (session * option mj)) : Prop :=
  forall s v g i r, stands v g -> xv s v i = Returns r -> mv s g i = Some r.
Lemma x_elems_agree xv mv l l' : agrees xv mv -> Forall2 stands l l' -> forall s r, x_elems xv s l = Returns r -> m_elems mv s l' = Some r.
Proof using.
  intros H. induction 1 as [|v g l l' S _ IH]; intros s r E; cbn [x_elems m_elems] in *; [injection E as <-; reflexivity|].
  destruct (xv s v None) as [| |[s1 x]] eqn:E1; cbn [after] in E; try discriminate. rewrite (H _ _ _ _ _ S E1).
  destruct (x_elems xv s1 l) as [| |[s2 rs]] eqn:E2; cbn [after] in E; try discriminate. rewrite (IH _ _ E2). injection E as <-. reflexivity.
Qed.
Definition same_parts {A} (l : list (A * xval)) (l' : list (A * gval)) : Prop := Forall2 (fun a b => fst a = fst b /\ stands (snd a) (snd b)) l l'.
Lemma x_members_agree xv mv l l' : agrees xv mv -> same_parts l l' -> forall s r, x_members xv s l = Returns r -> m_members mv s l' = Some r.
Proof using.
  intros H. induction 1 as [|[k v] [k' g] l l' [K S] _ IH]; intros s r E; try (cbn in K, S; subst); cbn [x_members m_members] in *; [injection E as <-; reflexivity|].
  destruct (xv s v None) as [| |[s1 x]] eqn:E1; cbn [after] in E; try discriminate. rewrite (H _ _ _ _ _ S E1).
  destruct (x_members xv s1 l) as [| |[s2 rs]] eqn:E2; cbn [after] in E; try discriminate. rewrite (IH _ _ E2). injection E as <-. reflexivity.
Qed.
Lemma x_fields_agree xv mv l l' : agrees xv mv -> same_parts l l' -> forall s d r, x_fields xv s l d = Returns r -> m_fields mv s l' d = Some r.
Proof using.
  intros H. induction 1 as [|[k v] [k' g] l l' [K S] _ IH]; intros s d r E; try (cbn in K, S; subst); cbn [x_fields m_fields] in *; [injection E as <-; reflexivity|].
  destruct (fi_ignore k'); [apply IH, E|]. destruct (fi_deprecated_by k'); [apply IH, E|].
  destruct (xv s v (Some k')) as [| |[s1 x]] eqn:E1; cbn [after] in E; try discriminate. rewrite (H _ _ _ _ _ S E1).
  destruct (x_fields xv s1 l d) as [| |[[s2 rs] d2]] eqn:E2; cbn [after] in E; try discriminate. rewrite (IH _ _ _ E2). injection E as <-. reflexivity.
Qed.
Lemma cannot_no_return n s v i r : unmarshalable v -> xmval st omit n s v i <> Returns r.
Proof using.
  destruct n as [|n]; [discriminate|]. destruct v as [[] b|k z|bit f|x|t|t|l|l|q|fs|a|x|j|j|j|t|a|]; cbn; try contradiction; try discriminate.
  intros U E. apply std_returns in E as [N _]. apply N, U.
Qed.
Lemma cannot_panics n s v i : unmarshalable v -> xmval st omit (S n) s v i = Panics.
Proof using.
  destruct v as [[] b|k z|bit f|x|t|t|l|l|q|fs|a|x|j|j|j|t|a|]; cbn; try contradiction; try discriminate; [reflexivity|]. apply std_panics.
Qed.

Lemma xmval_agree n : agrees (xmval st omit n) (mval gs omit n).
Proof using Hst.
  induction n as [|n IH]; intros s v g i r S E; [discriminate|].
  assert (SL : forall l l', Forall2 stands l l' -> match l with
          | [] => if flag i fi_omit_empty && omit then Returns (s, None) else Returns (s, finish_container i (MArr []))
          | _ => after (x_elems (xmval st omit n) s l) (fun '(s1, rs) => Returns (s1, finish_container i (MArr rs)))
          end = Returns r -> match l' with
          | [] => if flag i fi_omit_empty && omit then Some (s, None) else Some (s, finish_container i (MArr []))
          | _ => match m_elems (mval gs omit n) s l' with
                 | Some (s1, rs) => Some (s1, finish_container i (MArr rs))
                 | None => None
                 end
          end = Some r).
  { intros l l' F X. pose proof F as F'. destruct F' as [|x y l l' F1 F2]; [destruct (flag i fi_omit_empty && omit); injection X as <-; reflexivity|].
    destruct (x_elems (xmval st omit n) s (x :: l)) as [| |[s1 rs]] eqn:E1; cbn [after] in X; try discriminate.
    rewrite (x_elems_agree _ _ _ _ IH F _ _ E1). injection X as <-. reflexivity. }
  assert (SM : forall l l', same_parts l l' -> match l with
          | [] => if flag i fi_omit_empty && omit then Returns (s, None) else Returns (s, finish_container i (new_dict []))
          | _ => after (x_members (xmval st omit n) s l) (fun '(s1, rs) => Returns (s1, finish_container i (new_dict rs)))
          end = Returns r -> match l' with
          | [] => if flag i fi_omit_empty && omit then Some (s, None) else Some (s, finish_container i (new_dict []))
          | _ => match m_members (mval gs omit n) s l' with
                 | Some (s1, rs) => Some (s1, finish_container i (new_dict rs))
                 | None => None
                 end
          end = Some r).
  { intros l l' F X. pose proof F as F'. destruct F' as [|x y l l' F1 F2]; [destruct (flag i fi_omit_empty && omit); injection X as <-; reflexivity|].
    destruct (x_members (xmval st omit n) s (x :: l)) as [| |[s1 rs]] eqn:E1; cbn [after] in X; try discriminate.
    rewrite (x_members_agree _ _ _ _ IH F _ _ E1). injection X as <-. reflexivity. }
  inversion S; subst; try (cbn [xmval mval] in *; injection E as <-; reflexivity).
  - cbn [xmval mval] in *. eapply SL; eassumption.
  - cbn [xmval mval] in *. eapply SL; eassumption.
  - cbn [xmval mval] in *. eapply SM; eassumption.
  - cbn [xmval mval] in *. destruct (x_fields (xmval st omit n) s fs []) as [| |[[s1 ps] dep]] eqn:E1; cbn [after] in E; try discriminate.
    rewrite (x_fields_agree _ _ _ _ IH H _ _ _ E1). destruct (dep_pairs n dep dep ps) as [dps|]; [|discriminate].
    destruct (ps ++ dps); [destruct (flag i fi_omit_empty && omit)|]; injection E as <-; reflexivity.
  - cbn [xmval mval] in *. destruct a as [a|]; [|injection E as <-; reflexivity].
    destruct (tr_find None (s_trace s) a) as [t [id|]]; [injection E as <-; reflexivity|]. cbn in *.
    destruct (nth_error st a) as [x|] eqn:N; [|discriminate]. destruct (stands_cell _ _ N) as (g & -> & Sx).
    match type of E with after (xmval _ _ _ ?s1 _ _) _ = _ => set (s1' := s1) in * end.
    destruct (xmval st omit n s1' x i) as [| |[s2 r2]] eqn:E1; cbn [after] in E; try discriminate. rewrite (IH _ _ _ _ _ Sx E1). injection E as <-. reflexivity.
  - cbn [xmval mval] in *. eapply IH; eassumption.
  - cbn [xmval mval] in *. destruct j; injection E as <-; reflexivity.
  - cbn [xmval mval] in *. destruct j; injection E as <-; reflexivity.
  - cbn [xmval mval] in *. destruct (std_cases s t) as [(j' & m & L & E')|(B & E')]; rewrite E' in E; [|discriminate].
    destruct (C54_unambiguous _ _ _ _ _ H L) as [-> _]. injection E as <-. reflexivity.
  - cbn [xmval] in E. rewrite H in E. pose proof (IH _ _ _ _ _ H0 E) as X. eapply mval_mono; [|exact X]. lia.
  - cbn [xmval] in E. rewrite H in E. pose proof (IH _ _ _ _ _ H0 E) as X. eapply mval_mono; [|exact X]. lia.
  - exfalso. eapply cannot_no_return; eassumption.
Qed.

(** That it ends. *)
Definition ends (xv : nat -> session -> xval -> option finfo -> run (session * option mj)) (mv : session -> gval -> option finfo -> option (session * option mj)) : Prop :=
  forall s v g i r, stands v g -> mv s g i = Some r -> exists N, forall n, (N <= n)%nat -> xv n s v i = Returns r \/ xv n s v i = Panics.
Lemma x_elems_ends xv mv l l' : ends xv mv -> Forall2 stands l l' -> forall s r, m_elems mv s l' = Some r ->
  exists N, forall n, (N <= n)%nat -> x_elems (xv n) s l = Returns r \/ x_elems (xv n) s l = Panics.
Proof using.
  intros H. induction 1 as [|v g l l' S _ IH]; intros s r E; cbn [m_elems] in *; [injection E as <-; exists O; left; reflexivity|].
  destruct (mv s g None) as [[s1 x]|] eqn:E1; [|discriminate]. destruct (H _ _ _ _ _ S E1) as (N1 & A1).
  destruct (m_elems mv s1 l') as [[s2 rs]|] eqn:E2; [|discriminate]. destruct (IH _ _ E2) as (N2 & A2). injection E as <-.
  exists (Nat.max N1 N2). intros n L. cbn [x_elems]. destruct (A1 n ltac:(lia)) as [-> | ->]; cbn [after]; [|auto]. destruct (A2 n ltac:(lia)) as [-> | ->]; cbn [after]; auto.
Qed.
Lemma x_members_ends xv mv l l' : ends xv mv -> same_parts l l' -> forall s r, m_members mv s l' = Some r ->
  exists N, forall n, (N <= n)%nat -> x_members (xv n) s l = Returns r \/ x_members (xv n) s l = Panics.
Proof using.
  intros H. induction 1 as [|[k v] [k' g] l l' [K S] _ IH]; intros s r E; try (cbn in K, S; subst); cbn [m_members] in *; [injection E as <-; exists O; left; reflexivity|].
  destruct (mv s g None) as [[s1 x]|] eqn:E1; [|discriminate]. destruct (H _ _ _ _ _ S E1) as (N1 & A1).
  destruct (m_members mv s1 l') as [[s2 rs]|] eqn:E2; [|discriminate]. destruct (IH _ _ E2) as (N2 & A2). injection E as <-.
  exists (Nat.max N1 N2). intros n L. cbn [x_members]. cbn [snd] in A1. destruct (A1 n ltac:(lia)) as [-> | ->]; cbn [after]; [|auto]. destruct (A2 n ltac:(lia)) as [-> | ->]; cbn [after]; auto.
Qed.
Lemma x_fields_ends xv mv l l' : ends xv mv -> same_parts l l' -> forall s d r, m_fields mv s l' d = Some r ->
  exists N, forall n, (N <= n)%nat -> x_fields (xv n) s l d = Returns r \/ x_fields (xv n) s l d = Panics.
Proof using.
  intros H. induction 1 as [|[k v] [k' g] l l' [K S] _ IH]; intros s d r E; try (cbn in K, S; subst); cbn [m_fields] in *; [injection E as <-; exists O; left; reflexivity|].
  cbn [x_fields]. destruct (fi_ignore k'); [apply IH, E|]. destruct (fi_deprecated_by k'); [apply IH, E|].
  destruct (mv s g (Some k')) as [[s1 x]|] eqn:E1; [|discriminate]. destruct (H _ _ _ _ _ S E1) as (N1 & A1).
  destruct (m_fields mv s1 l' d) as [[[s2 rs] d2]|] eqn:E2; [|discriminate]. destruct (IH _ _ _ E2) as (N2 & A2). injection E as <-.
  exists (Nat.max N1 N2). intros n L. cbn [snd] in A1. destruct (A1 n ltac:(lia)) as [-> | ->]; cbn [after]; [|auto]. destruct (A2 n ltac:(lia)) as [-> | ->]; cbn [after]; auto.
Qed.

Lemma xmval_ends m : ends (fun n => xmval st omit n) (mval gs omit m).
Proof using Hst.
  induction m as [|m IH]; intros s v g i r S E; [discriminate|].
  assert (SL : forall l l', Forall2 stands l l' -> match l' with
          | [] => if flag i fi_omit_empty && omit then Some (s, None) else Some (s, finish_container i (MArr []))
          | _ => match m_elems (mval gs omit m) s l' with
                 | Some (s1, rs) => Some (s1, finish_container i (MArr rs))
                 | None => None
                 end
          end = Some r -> exists N, forall n, (N <= n)%nat -> let R := match l with
          | [] => if flag i fi_omit_empty && omit then Returns (s, None) else Returns (s, finish_container i (MArr []))
          | _ => after (x_elems (xmval st omit n) s l) (fun '(s1, rs) => Returns (s1, finish_container i (MArr rs)))
          end in R = Returns r \/ R = Panics).
  { intros l l' F X. pose proof F as F'. destruct F' as [|x y l l' F1 F2]; [exists O; intros n _; destruct (flag i fi_omit_empty && omit); injection X as <-; left; reflexivity|].
    destruct (m_elems (mval gs omit m) s (y :: l')) as [[s1 rs]|] eqn:E1; [|discriminate]. injection X as <-.
    destruct (x_elems_ends _ _ _ _ IH F _ _ E1) as (N & A). exists N. intros n L. cbv zeta. destruct (A n L) as [-> | ->]; cbn [after]; auto. }
  assert (SM : forall l l', same_parts l l' -> match l' with
          | [] => if flag i fi_omit_empty && omit then Some (s, None) else Some (s, finish_container i (new_dict []))
          | _ => match m_members (mval gs omit m) s l' with
                 | Some (s1, rs) => Some (s1, finish_container i (new_dict rs))
                 | None => None
                 end
          end = Some r -> exists N, forall n, (N <= n)%nat -> let R := match l with
          | [] => if flag i fi_omit_empty && omit then Returns (s, None) else Returns (s, finish_container i (new_dict []))
          | _ => after (x_members (xmval st omit n) s l) (fun '(s1, rs) => Returns (s1, finish_container i (new_dict rs)))
          end in R = Returns r \/ R = Panics).
  { intros l l' F X. pose proof F as F'. destruct F' as [|x y l l' F1 F2]; [exists O; intros n _; destruct (flag i fi_omit_empty && omit); injection X as <-; left; reflexivity|].
    destruct (m_members (mval gs omit m) s (y :: l')) as [[s1 rs]|] eqn:E1; [|discriminate]. injection X as <-.
    destruct (x_members_ends _ _ _ _ IH F _ _ E1) as (N & A). exists N. intros n L. cbv zeta. destruct (A n L) as [-> | ->]; cbn [after]; auto. }
  assert (UP : forall (f : nat -> run (session * option mj)), (exists N, forall n, (N <= n)%nat -> f n = Returns r \/ f n = Panics) ->
     (forall n, xmval st omit (Datatypes.S n) s v i = f n) -> exists N, forall n, (N <= n)%nat -> xmval st omit n s v i = Returns r \/ xmval st omit n s v i = Panics).
  { intros f (N & A) F. exists (Datatypes.S N). intros [|n] L; [lia|]. rewrite F. apply A. lia. }
  inversion S; subst; try solve [exists 1%nat; intros [|n] L; [lia|]; cbn [xmval mval] in *; injection E as <-; left; reflexivity].
  - refine (UP _ _ (fun n => eq_refl)). apply (SL _ _ H). exact E.
  - refine (UP _ _ (fun n => eq_refl)). apply (SL _ _ H). exact E.
  - refine (UP _ _ (fun n => eq_refl)). apply (SM _ _ H). exact E.
  - cbn [mval] in E. destruct (m_fields (mval gs omit m) s fs' []) as [[[s1 ps] dep]|] eqn:E1; [|discriminate].
    destruct (x_fields_ends _ _ _ _ IH H _ _ _ E1) as (N & A). destruct (dep_pairs m dep dep ps) as [dps|] eqn:E2; [|discriminate].
    exists (Datatypes.S (Nat.max N m)). intros [|n] L; [lia|]. cbn [xmval]. destruct (A n ltac:(lia)) as [-> | ->]; cbn [after]; [|auto].
    rewrite (dep_pairs_mono m n dep ps ltac:(lia) _ _ E2). left. destruct (ps ++ dps); [destruct (flag i fi_omit_empty && omit)|]; injection E as <-; reflexivity.
  - cbn [mval] in E. destruct a as [a|]; [|exists 1%nat; intros [|n] L; [lia|]; injection E as <-; left; reflexivity].
    destruct (tr_find None (s_trace s) a) as [t [id|]] eqn:F.
    { exists 1%nat. intros [|n] L; [lia|]. cbn [xmval]. rewrite F. injection E as <-. left. reflexivity. }
    cbn in E. destruct (nth_error gs a) as [g|] eqn:N; [|discriminate]. destruct (stands_cell_back _ _ N) as (x & Nx & Sx).
    match type of E with match mval _ _ _ ?s1 _ _ with _ => _ end = _ => set (s1' := s1) in * end.
    destruct (mval gs omit m s1' g i) as [[s2 r2]|] eqn:E1; [|discriminate]. injection E as <-.
    destruct (IH _ _ _ _ _ Sx E1) as (N1 & A). exists (Datatypes.S N1). intros [|n] L; [lia|]. cbn [xmval]. rewrite F. cbn. rewrite Nx. fold s1'.
    destruct (A n ltac:(lia)) as [-> | ->]; cbn [after]; auto.
  - refine (UP _ _ (fun n => eq_refl)). eapply IH; eassumption.
  - exists 1%nat. intros [|n] L; [lia|]. cbn [xmval mval] in *. destruct j; injection E as <-; left; reflexivity.
  - exists 1%nat. intros [|n] L; [lia|]. cbn [xmval mval] in *. destruct j; injection E as <-; left; reflexivity.
  - exists 1%nat. intros [|n0] L; [lia|]. cbn [xmval mval] in *. destruct (std_cases s t) as [(j' & k & L' & E')|(B & E')]; rewrite E'; [|auto].
    destruct (C54_unambiguous _ _ _ _ _ H L') as [-> _]. injection E as <-. left. reflexivity.
  - inversion H0 as [ | | | | | | | | | |? m' F| | | | | | | | | | | |? ? U]; subst; [|destruct U].
    destruct (SM _ _ F E) as (N & A). exists (Datatypes.S (Datatypes.S N)). intros [|[|n]] L; try lia. cbn [xmval]. rewrite H. apply (A n). lia.
  - inversion H0 as [ | | | | | | |? l' F| | | | | | | | | | | | | | |? ? U]; subst; [|destruct U].
    destruct (SL _ _ F E) as (N & A). exists (Datatypes.S (Datatypes.S N)). intros [|[|n]] L; try lia. cbn [xmval]. rewrite H. apply (A n). lia.
  - exists 1%nat. intros [|n] L; [lia|]. right. apply cannot_panics. assumption.
Qed.
End Agree.
