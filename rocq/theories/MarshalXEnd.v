(** Marshal with panics: what keeps it from ever ending, and that it ends
    otherwise. *)
From Verif Require Import Base Strconv SortedMap SortedMapFacts Json SpecJson SpecLenient Printer Parser Heap Gotypes Marshal SpecMarshal MarshalX SpecMarshalPanic
  MarshalFacts DepFacts MarshalTerm MarshalEnc MarshalEnc2 MarshalFinal MarshalXFacts.

Section Ends.
Context (st : xstore) (omit : bool).
Notation inside := (inside st).
Notation contains := (contains st).
Notation holds_directly := (holds_directly st).

(** ** A call that returns has called itself on everything inside *)

Lemma x_elems_each xv l : forall s r, x_elems xv s l = Returns r -> forall w, In w l -> exists s' i' r', xv s' w i' = Returns r'.
Proof using.
  induction l as [|v l IH]; intros s r E w I; [destruct I|]. cbn [x_elems] in E.
  destruct (xv s v None) as [| |[s1 x]] eqn:E1; cbn [after] in E; try discriminate.
  destruct (x_elems xv s1 l) as [| |[s2 rs]] eqn:E2; cbn [after] in E; try discriminate. destruct I as [<-|I]; eauto.
Qed.
Lemma x_members_each xv (l : list (bytes * xval)) : forall s r, x_members xv s l = Returns r -> forall k w, In (k, w) l -> exists s' i' r', xv s' w i' = Returns r'.
Proof using.
  induction l as [|[k v] l IH]; intros s r E k' w I; [destruct I|]. cbn [x_members] in E.
  destruct (xv s v None) as [| |[s1 x]] eqn:E1; cbn [after] in E; try discriminate.
  destruct (x_members xv s1 l) as [| |[s2 rs]] eqn:E2; cbn [after] in E; try discriminate. destruct I as [[= <- <-]|I]; eauto.
Qed.
Lemma x_fields_each xv (l : list (finfo * xval)) : forall s d r, x_fields xv s l d = Returns r ->
  forall k w, In (k, w) l -> fi_ignore k = false -> fi_deprecated_by k = None -> exists s' i' r', xv s' w i' = Returns r'.
Proof using.
  induction l as [|[k v] l IH]; intros s d r E k' w I K1 K2; [destruct I|]. cbn [x_fields] in E.
  destruct I as [[= <- <-]|I].
  - rewrite K1, K2 in E. destruct (xv s v (Some k)) as [| |[s1 x]] eqn:E1; cbn [after] in E; try discriminate. eauto.
  - destruct (fi_ignore k); [eauto|]. destruct (fi_deprecated_by k); [eauto|].
    destruct (xv s v (Some k)) as [| |[s1 x]] eqn:E1; cbn [after] in E; try discriminate.
    destruct (x_fields xv s1 l d) as [| |[[s2 rs] d2]] eqn:E2; cbn [after] in E; try discriminate. eauto.
Qed.

Lemma xmval_inside n s v i r w : xmval st omit (S n) s v i = Returns r -> inside v None w -> exists s' i' r', xmval st omit n s' w i' = Returns r'.
Proof using.
  intros E I. cbn [xmval] in E. inversion I as [l x J|l x J|m k x J|fs k x J K1 K2|x|a x J|]; subst.
  - destruct l as [|y l]; [destruct J|]. destruct (x_elems (xmval st omit n) s (y :: l)) as [| |[s1 rs]] eqn:E1; cbn [after] in E; try discriminate. eapply x_elems_each; eassumption.
  - destruct l as [|y l]; [destruct J|]. destruct (x_elems (xmval st omit n) s (y :: l)) as [| |[s1 rs]] eqn:E1; cbn [after] in E; try discriminate. eapply x_elems_each; eassumption.
  - destruct m as [|y m]; [destruct J|]. destruct (x_members (xmval st omit n) s (y :: m)) as [| |[s1 rs]] eqn:E1; cbn [after] in E; try discriminate. eapply x_members_each; eassumption.
  - destruct (x_fields (xmval st omit n) s fs []) as [| |[[s1 ps] dep]] eqn:E1; cbn [after] in E; try discriminate. eapply x_fields_each; eassumption.
  - eauto.
  - rewrite J in E. destruct w as [| | | | | |[]| |[]| | | | | | | | |]; try discriminate E; eauto.
Qed.
Lemma xmval_holds v w : holds_directly v w -> forall n s i r, xmval st omit n s v i = Returns r -> exists m s' i' r', (m < n)%nat /\ xmval st omit m s' w i' = Returns r'.
Proof using.
  induction 1 as [v x I|v w x I _ IH]; intros [|n] s i r E; try discriminate.
  - destruct (xmval_inside _ _ _ _ _ _ E I) as (s' & i' & r' & E'). exists n, s', i', r'. split; [lia|exact E'].
  - destruct (xmval_inside _ _ _ _ _ _ E I) as (s' & i' & r' & E'). destruct (IH _ _ _ _ E') as (m & s2 & i2 & r2 & L & E2). exists m, s2, i2, r2. split; [lia|exact E2].
Qed.

(** ** Tags *)

Lemma x_fields_tags xv fs : forall s d s' ps d', x_fields xv s fs d = Returns (s', ps, d') ->
  forall k, sm_get d' k = match tags fs k with Some x => Some x | None => sm_get d k end.
Proof using.
  unfold tags. induction fs as [|[i v] fs IH]; intros s d s' ps d' E k; cbn [x_fields tag_of map fst] in *; [injection E as <- <- <-; reflexivity|].
  set (T := tag_of (map (fun fv : finfo * xval => (fst fv, GOther)) fs) k) in *.
  destruct (fi_ignore i); [cbn [negb andb]; rewrite (IH _ _ _ _ _ E); fold T; destruct T; reflexivity|]. cbn [negb andb].
  destruct (fi_deprecated_by i) as [x|] eqn:D.
  - rewrite (IH _ _ _ _ _ E), sm_get_add. fold T. destruct T; [reflexivity|].
    destruct (bseq_spec (fi_name i) k) as [->|N]; [rewrite bseq_refl; reflexivity|].
    destruct (bseq_spec k (fi_name i)); [congruence|reflexivity].
  - destruct (xv s v (Some i)) as [| |[s1 r]]; cbn [after] in E; try discriminate. destruct (x_fields xv s1 fs d) as [| |[[s2 rs2] d2]] eqn:E2; cbn [after] in E; try discriminate.
    injection E as <- <- <-. rewrite (IH _ _ _ _ _ E2). fold T. destruct T; [reflexivity|]. destruct (bseq (fi_name i) k); reflexivity.
Qed.
Lemma x_fields_sorted xv fs : forall s d s' ps d', sm_ok d -> x_fields xv s fs d = Returns (s', ps, d') -> sm_ok d'.
Proof using.
  induction fs as [|[i v] fs IH]; intros s d s' ps d' O E; cbn [x_fields] in E; [injection E as <- <- <-; exact O|].
  destruct (fi_ignore i); [eapply IH; eassumption|]. destruct (fi_deprecated_by i).
  - eapply IH; [|exact E]. apply sm_add_ok, O.
  - destruct (xv s v (Some i)) as [| |[s1 r]]; cbn [after] in E; try discriminate. destruct (x_fields xv s1 fs d) as [| |[[s2 rs2] d2]] eqn:E2; cbn [after] in E; try discriminate.
    injection E as <- <- <-. eapply IH; eassumption.
Qed.

Lemma returns_fine n s v i r : xmval st omit n s v i = Returns r -> ~ (unmarshalable v \/ endless st v).
Proof using.
  intros E [U|[H|(fs & k & -> & T)]].
  - eapply cannot_no_return; eassumption.
  - revert s i r E. induction n as [n IH] using lt_wf_ind. intros s i r E. destruct (xmval_holds _ _ H _ _ _ _ E) as (m & s' & i' & r' & L & E'). exact (IH m L _ _ _ E').
  - destruct n as [|n]; [discriminate|]. cbn [xmval] in E.
    destruct (x_fields (xmval st omit n) s fs []) as [| |[[s1 ps] dep]] eqn:E1; cbn [after] in E; try discriminate.
    assert (forall k, sm_get dep k = tags fs k) as TG.
    { intros k'. rewrite (x_fields_tags _ _ _ _ _ _ _ E1). destruct (tags fs k'); reflexivity. }
    pose proof (x_fields_sorted _ _ _ _ _ _ _ sm_ok_nil E1) as Ok.
    assert (trapped (fun k => sm_get dep k) k) as TD by (eapply trapped_ext; [|exact T]; intros; symmetry; apply TG).
    destruct (sm_get dep k) as [key|] eqn:K.
    + destruct (dep_pairs n dep dep ps) as [dps|] eqn:E2; [|discriminate].
      eapply (dep_pairs_each n dep ps dep dps E2 k key); [apply sm_get_in; assumption|]. apply resolve_trapped; assumption.
    + destruct TD as (b & Lb & (c & Tc & Lc) & NL). inversion Lb as [|? ? ? Tk]; subst; [|congruence]. simpl in *. congruence.
Qed.

(** ** The trace *)

Section Ext.
Context (xv : session -> xval -> option finfo -> run (session * option mj)).
Context (Hxv : forall s v i s' r, counts_ok s -> xv s v i = Returns (s', r) -> ext s s').
Lemma x_elems_ext l : forall s s' rs, counts_ok s -> x_elems xv s l = Returns (s', rs) -> ext s s'.
Proof using Hxv.
  induction l as [|v l IH]; intros s s' rs C E; cbn [x_elems] in E; [injection E as <- <-; apply ext_refl|].
  destruct (xv s v None) as [| |[s1 r]] eqn:E1; cbn [after] in E; try discriminate. destruct (x_elems xv s1 l) as [| |[s2 rs2]] eqn:E2; cbn [after] in E; try discriminate.
  injection E as <- _. specialize (Hxv _ _ _ _ _ C E1). eapply ext_trans; [exact Hxv|]. eapply IH; [eapply ext_counts; eassumption|exact E2].
Qed.
Lemma x_members_ext l : forall s s' rs, counts_ok s -> x_members xv s l = Returns (s', rs) -> ext s s'.
Proof using Hxv.
  induction l as [|[k v] l IH]; intros s s' rs C E; cbn [x_members] in E; [injection E as <- <-; apply ext_refl|].
  destruct (xv s v None) as [| |[s1 r]] eqn:E1; cbn [after] in E; try discriminate. destruct (x_members xv s1 l) as [| |[s2 rs2]] eqn:E2; cbn [after] in E; try discriminate.
  injection E as <- _. specialize (Hxv _ _ _ _ _ C E1). eapply ext_trans; [exact Hxv|]. eapply IH; [eapply ext_counts; eassumption|exact E2].
Qed.
Lemma x_fields_ext l : forall s d s' rs d', counts_ok s -> x_fields xv s l d = Returns (s', rs, d') -> ext s s'.
Proof using Hxv.
  induction l as [|[i v] l IH]; intros s d s' rs d' C E; cbn [x_fields] in E; [injection E as <- <- <-; apply ext_refl|].
  destruct (fi_ignore i); [eapply IH; eassumption|]. destruct (fi_deprecated_by i); [eapply IH; eassumption|].
  destruct (xv s v (Some i)) as [| |[s1 r]] eqn:E1; cbn [after] in E; try discriminate. destruct (x_fields xv s1 l d) as [| |[[s2 rs2] d2]] eqn:E2; cbn [after] in E; try discriminate.
  injection E as <- _ _. specialize (Hxv _ _ _ _ _ C E1). eapply ext_trans; [exact Hxv|]. eapply IH; [eapply ext_counts; eassumption|exact E2].
Qed.
End Ext.

Lemma xmval_ext n : forall s v i s' r, counts_ok s -> xmval st omit n s v i = Returns (s', r) -> ext s s'.
Proof using.
  induction n as [|n IH]; intros s v i s' r C E; [discriminate|]. cbn [xmval] in E.
  assert (forall l, match l with
          | [] => if flag i fi_omit_empty && omit then Returns (s, None) else Returns (s, finish_container i (MArr []))
          | _ => after (x_elems (xmval st omit n) s l) (fun '(s1, rs) => Returns (s1, finish_container i (MArr rs)))
          end = Returns (s', r) -> ext s s') as SL.
  { intros l X. destruct l as [|x l]; [destruct (flag i fi_omit_empty && omit); injection X as <- _; apply ext_refl|].
    destruct (x_elems (xmval st omit n) s (x :: l)) as [| |[s1 rs]] eqn:E1; cbn [after] in X; try discriminate. injection X as <- _.
    eapply x_elems_ext; [|exact C|exact E1]. exact IH. }
  destruct v as [[] b|k z|bit f|x|t|t|[l|]|l|[m|]|fs|[a|]|[x|]|[j|]|[j|]|j|t|a|]; try discriminate;
    try (injection E as <- _; apply ext_refl); try (apply (SL l E)).
  - destruct m as [|x m]; [destruct (flag i fi_omit_empty && omit); injection E as <- _; apply ext_refl|].
    destruct (x_members (xmval st omit n) s (x :: m)) as [| |[s1 ps]] eqn:E1; cbn [after] in E; try discriminate. injection E as <- _.
    eapply x_members_ext; [|exact C|exact E1]. exact IH.
  - destruct (x_fields (xmval st omit n) s fs []) as [| |[[s1 ps] dep]] eqn:E1; cbn [after] in E; try discriminate.
    destruct (dep_pairs n dep dep ps) as [dps|]; [|discriminate].
    assert (s' = s1) as -> by (destruct (ps ++ dps); [destruct (flag i fi_omit_empty && omit)|]; injection E as <- _; reflexivity).
    eapply x_fields_ext; [|exact C|exact E1]. exact IH.
  - destruct (tr_find None (s_trace s) a) as [t [id|]] eqn:F.
    + injection E as <- _. eapply hit_ext; eassumption.
    + cbn in E. destruct (nth_error st a) as [x|]; [|discriminate].
      match type of E with after ?c _ = _ => destruct c as [| |[s2 r2]] eqn:E1; cbn [after] in E; try discriminate end.
      injection E as <- _. pose proof (proj1 (tr_find_spec _ _ _ _ _ F)) as B.
      eapply ext_pointer; [exact B|]. eapply IH; [|exact E1]. eapply counts_push; eassumption.
  - eapply IH; eassumption.
  - injection E as <- _. split; [simpl; lia|]. exists (s_trace s), []. simpl. rewrite app_nil_r.
    repeat split; [apply bumped_refl|left; reflexivity|constructor].
  - apply std_returns in E as [_ E]. cbn in E. subst. apply ext_refl.
  - destruct (nth_error st a) as [x|]; [|discriminate].
    assert (E' : xmval st omit n s x i = Returns (s', r)) by (destruct x as [| | | | | |[]| |[]| | | | | | | | |]; try discriminate E; exact E).
    eapply IH; eassumption.
Qed.

(** ** It ends *)

(** From some fuel on, one outcome. *)
Definition settles {A} (f : nat -> run A) : Prop := exists N R, R <> Going /\ forall n, (N <= n)%nat -> f n = R.
Lemma settles_const {A} (r : run A) : r <> Going -> settles (fun _ => r).
Proof using. intros H. exists O, r. auto. Qed.
Lemma settles_S {A} (f : nat -> run A) : settles (fun n => f (S n)) -> settles f.
Proof using. intros (N & R & H & E). exists (S N), R. split; [exact H|]. intros [|n] L; [lia|]. apply E. lia. Qed.
Lemma settles_ext {A} (f g : nat -> run A) : (forall n, f n = g n) -> settles f -> settles g.
Proof using. intros H (N & R & NG & E). exists N, R. split; [exact NG|]. intros n L. rewrite <- H. auto. Qed.
Lemma settles_after {A B} (f : nat -> run A) (k : nat -> A -> run B) :
  settles f -> (forall a N, (forall n, (N <= n)%nat -> f n = Returns a) -> settles (fun n => k n a)) -> settles (fun n => after (f n) (k n)).
Proof using.
  intros (N & R & H & E) K. destruct R as [| |a]; [congruence| |].
  - exists N, Panics. split; [discriminate|]. intros n L. rewrite (E n L). reflexivity.
  - destruct (K a N E) as (N2 & R2 & H2 & E2). exists (Nat.max N N2), R2. split; [exact H2|]. intros n L. rewrite E by lia. cbn. apply E2. lia.
Qed.

Definition open_at (s : session) (a : addr) : bool := negb (existsb (Nat.eqb a) (addrs s)).
Definition unseen (s : session) : nat := length (filter (open_at s) (seq 0 (length st))).
Lemma open_at_spec s a : open_at s a = true <-> ~ In a (addrs s).
Proof using.
  unfold open_at. rewrite negb_true_iff. split.
  - intros E I. assert (X : existsb (Nat.eqb a) (addrs s) = true) by (apply existsb_exists; exists a; split; [exact I|apply Nat.eqb_refl]). congruence.
  - intros N. destruct (existsb (Nat.eqb a) (addrs s)) eqn:E; [|reflexivity]. apply existsb_exists in E as (b & I & E). apply Nat.eqb_eq in E. subst. contradiction.
Qed.
Lemma unseen_le s s' : ext s s' -> (unseen s' <= unseen s)%nat.
Proof using.
  intros X. apply filter_le. intros a. rewrite !open_at_spec. intros N I. apply N. apply (ext_incl _ _ X), I.
Qed.
Lemma unseen_push s t a id x : nth_error st a = Some x -> ~ In a (addrs s) -> bumped (s_trace s) t ->
  (unseen {| s_idx := id; s_trace := t ++ [{| te_addr := a; te_id := id; te_cnt := 1 |}] |} < unseen s)%nat.
Proof using.
  intros Nx Na B. set (s1 := {| s_idx := id; s_trace := _ |}).
  assert (EA : addrs s1 = addrs s ++ [a]) by (unfold s1, addrs; cbn [s_trace]; rewrite map_app, (bumped_addrs _ _ B); reflexivity).
  apply filter_lt with a.
  - apply in_seq. assert (a < length st)%nat by (apply nth_error_Some; congruence). lia.
  - destruct (open_at s1 a) eqn:O; [|reflexivity]. apply open_at_spec in O. exfalso. apply O. rewrite EA. apply in_or_app. right. left. reflexivity.
  - apply open_at_spec, Na.
  - intros y. rewrite !open_at_spec, EA. intros H I. apply H, in_or_app. left. exact I.
Qed.

Fixpoint xdepth (v : xval) : nat :=
  match v with
  | XSlice (Some l) | XArray l => S (list_max (map xdepth l))
  | XMap (Some m) => S (list_max (map (fun kv => xdepth (snd kv)) m))
  | XStruct fs => S (list_max (map (fun fv => xdepth (snd fv)) fs))
  | XIface (Some x) => S (xdepth x)
  | _ => O
  end.
Lemma xdepth_inside v w : inside v None w -> (forall a, v <> XShared a) -> (xdepth w < xdepth v)%nat.
Proof using.
  intros I N. inversion I as [l x J|l x J|m k x J|fs k x J K1 K2|x|a x J|]; subst; cbn [xdepth]; apply Nat.lt_succ_r.
  - apply list_max_in, List.in_map, J.
  - apply list_max_in, List.in_map, J.
  - apply list_max_in. exact (List.in_map (fun kv : bytes * xval => xdepth (snd kv)) _ _ J).
  - apply list_max_in. exact (List.in_map (fun kv : finfo * xval => xdepth (snd kv)) _ _ J).
  - lia.
  - destruct (N a eq_refl).
Qed.

(** [v] is as Marshal can get through it. *)
Definition bounded (v : xval) : Prop := complete st v /\ forall x, contains v x -> ~ endless st x.
Lemma bounded_inside v p w : bounded v -> inside v p w -> bounded w.
Proof using.
  intros [C E] I. split.
  - intros x X. apply C. econstructor; eassumption.
  - intros x X. apply E. econstructor; eassumption.
Qed.

Definition settled_below (B : nat) (w : xval) : Prop :=
  forall s i, counts_ok s -> (unseen s <= B)%nat -> settles (fun n => xmval st omit n s w i).

Lemma x_elems_settle B l : Forall (settled_below B) l -> forall s, counts_ok s -> (unseen s <= B)%nat -> settles (fun n => x_elems (xmval st omit n) s l).
Proof using.
  induction 1 as [|v l H _ IH]; intros s C L; cbn [x_elems]; [apply settles_const; discriminate|].
  apply settles_after; [apply H; assumption|]. intros [s1 r] N E. specialize (E N ltac:(lia)). pose proof (xmval_ext _ _ _ _ _ _ C E) as X.
  apply settles_after; [apply IH; [eapply ext_counts; eassumption|pose proof (unseen_le _ _ X); lia]|]. intros [s2 rs] _ _. apply settles_const. discriminate.
Qed.
Lemma x_members_settle B (l : list (bytes * xval)) : Forall (fun kv => settled_below B (snd kv)) l -> forall s, counts_ok s -> (unseen s <= B)%nat -> settles (fun n => x_members (xmval st omit n) s l).
Proof using.
  induction 1 as [|[k v] l H _ IH]; intros s C L; cbn [x_members]; [apply settles_const; discriminate|].
  apply settles_after; [apply H; assumption|]. intros [s1 r] N E. specialize (E N ltac:(lia)). pose proof (xmval_ext _ _ _ _ _ _ C E) as X.
  apply settles_after; [apply IH; [eapply ext_counts; eassumption|pose proof (unseen_le _ _ X); lia]|]. intros [s2 rs] _ _. apply settles_const. discriminate.
Qed.
Lemma x_fields_settle B (l : list (finfo * xval)) : Forall (fun kv => fi_ignore (fst kv) = false -> fi_deprecated_by (fst kv) = None -> settled_below B (snd kv)) l ->
  forall s d, counts_ok s -> (unseen s <= B)%nat -> settles (fun n => x_fields (xmval st omit n) s l d).
Proof using.
  induction 1 as [|[k v] l H _ IH]; intros s d C L; cbn [x_fields]; [apply settles_const; discriminate|]. cbn in H.
  destruct (fi_ignore k); [apply IH; assumption|]. destruct (fi_deprecated_by k); [apply IH; assumption|].
  apply settles_after; [apply H; auto|]. intros [s1 r] N E. specialize (E N ltac:(lia)). pose proof (xmval_ext _ _ _ _ _ _ C E) as X.
  apply settles_after; [apply IH; [eapply ext_counts; eassumption|pose proof (unseen_le _ _ X); lia]|]. intros [[s2 rs] d2] _ _. apply settles_const. discriminate.
Qed.

Lemma holds_inside_none v w x : holds_directly v w -> inside w None x -> holds_directly v x.
Proof using. induction 1 as [v w I|v u w I _ IH]; intros J; [eapply h_step; [exact I|apply h_one, J]|eapply h_step; [exact I|auto]]. Qed.

Lemma xmval_settles : forall B K d v s i P, bounded v -> counts_ok s -> (unseen s <= B)%nat ->
  NoDup P -> incl P (seq 0 (length st)) -> (length st <= K + length P)%nat -> (forall a, In a P -> holds_directly (XShared a) v) ->
  (xdepth v <= d)%nat -> settles (fun n => xmval st omit n s v i).
Proof using.
  induction B as [B IB] using lt_wf_ind. induction K as [K IK] using lt_wf_ind. induction d as [d Id] using lt_wf_ind.
  intros v s i P Bv C LB ND IP LK HP Ld.
  assert (CH : (forall a, v <> XShared a) -> forall w, inside v None w -> settled_below (unseen s) w).
  { intros NS w I s' i' C' L'. pose proof (xdepth_inside _ _ I NS) as Lt. apply (Id (xdepth w) ltac:(lia) w s' i' P); try assumption; try lia.
    - eapply bounded_inside; eassumption.
    - intros a Ia. eapply holds_inside_none; eauto. }
  assert (SL : forall l, (forall w, In w l -> settled_below (unseen s) w) -> settles (fun n => match l with
          | [] => if flag i fi_omit_empty && omit then Returns (s, None) else Returns (s, finish_container i (MArr []))
          | _ => after (x_elems (xmval st omit n) s l) (fun '(s1, rs) => Returns (s1, finish_container i (MArr rs)))
          end)).
  { intros l Hl. destruct l as [|x l]; [destruct (flag i fi_omit_empty && omit); apply settles_const; discriminate|].
    apply (settles_after _ (fun _ '(s1, rs) => Returns (s1, finish_container i (MArr rs)))); [|intros [s1 rs] _ _; apply settles_const; discriminate].
    apply (x_elems_settle (unseen s)); [apply Forall_forall, Hl|exact C|lia]. }
  apply settles_S. cbn [xmval].
  destruct v as [[] b|k z|bit f|x|t|t|[l|]|l|[q|]|fs|[a|]|[x|]|[j|]|[j|]|j|t|a|]; try (apply settles_const; discriminate).
  - apply SL. intros w I. apply CH; [discriminate|apply in_slice, I].
  - apply SL. intros w I. apply CH; [discriminate|apply in_array, I].
  - destruct q as [|x q]; [destruct (flag i fi_omit_empty && omit); apply settles_const; discriminate|].
    apply (settles_after _ (fun _ '(s1, ps) => Returns (s1, finish_container i (new_dict ps)))); [|intros [s1 rs] _ _; apply settles_const; discriminate].
    apply (x_members_settle (unseen s)); [|exact C|lia]. apply Forall_forall. intros [k w] I. apply CH; [discriminate|eapply in_map, I].
  - apply settles_after.
    + apply (x_fields_settle (unseen s)); [|exact C|lia]. apply Forall_forall. intros [k w] I K1 K2. apply CH; [discriminate|eapply in_field; eassumption].
    + intros [[s1 ps] dep] N E. specialize (E N ltac:(lia)).
      assert (T : forall k, sm_get dep k = tags fs k) by (intros k; rewrite (x_fields_tags _ _ _ _ _ _ _ E); destruct (tags fs k); reflexivity).
      pose proof (x_fields_sorted _ _ _ _ _ _ _ sm_ok_nil E) as O.
      destruct (dep_pairs_total dep ps O) with (todo := dep) as [r R].
      { intros k TR. destruct Bv as [_ Bv]. apply (Bv _ (c_self st _)). right. exists fs, k. split; [reflexivity|]. eapply trapped_ext; [|exact TR]. exact T. }
      { apply incl_refl. }
      exists (S (length dep)). exists (match ps ++ r with [] => if flag i fi_omit_empty && omit then Returns (s1, None) else Returns (s1, finish_container i (new_dict [])) | all => Returns (s1, finish_container i (new_dict all)) end).
      split; [destruct (ps ++ r); [destruct (flag i fi_omit_empty && omit)|]; discriminate|].
      intros n Ln. rewrite (dep_pairs_mono _ n _ _ Ln _ _ R). reflexivity.
  - destruct (tr_find None (s_trace s) a) as [t [id|]] eqn:F; [apply settles_const; discriminate|]. cbn.
    destruct (proj1 Bv _ (c_self st _)) as (x & Nx). rewrite Nx.
    destruct (tr_find_spec _ _ _ _ _ F) as (BU & _ & _ & NF). destruct NF as [NF _]. specialize (NF eq_refl) as [_ NF].
    apply (settles_after _ (fun _ '(s2, r) => Returns ({| s_idx := s_idx s2; s_trace := tr_pop (s_trace s2) |}, set_owner (s_idx s + 1) r))); [|intros [s2 r2] _ _; apply settles_const; discriminate].
    pose proof (unseen_push s t a (s_idx s + 1) x Nx NF BU) as LU.
    eapply (IB _ (Nat.lt_le_trans _ _ _ LU LB) (length st) (xdepth x) x _ i []).
    + eapply bounded_inside; [exact Bv|apply in_pointer, Nx].
    + eapply counts_push; eassumption.
    + lia.
    + constructor.
    + intros y [].
    + cbn. lia.
    + intros y [].
    + lia.
  - apply (Id (xdepth x) ltac:(cbn in Ld; lia) x s i P); try assumption; try lia.
    + eapply bounded_inside; [exact Bv|apply in_iface].
    + intros a Ia. eapply holds_inside_none; [apply HP, Ia|apply in_iface].
  - apply settles_const. destruct t as [t|]; [|discriminate]. destruct (std_cases s t) as [(j & m & _ & ->)|(_ & ->)]; discriminate.
  - assert (X : exists x, nth_error st a = Some x /\ (forall n, xmval st omit n s x i = match nth_error st a with
          | Some (XMap (Some m) as x) => xmval st omit n s x i
          | Some (XSlice (Some l) as x) => xmval st omit n s x i
          | _ => Going
          end)).
    { destruct (proj1 Bv _ (c_self st _)) as [(m & E)|(l & E)]; rewrite E; eauto. }
    destruct X as (x & Nx & X). eapply settles_ext; [exact X|].
    assert (I : inside (XShared a) None x) by (apply in_shared, Nx).
    assert (Na : ~ In a P). { intros Ia. destruct Bv as [_ Bv]. apply (Bv _ (c_self st _)). left. apply HP, Ia. }
    assert (La : (a < length st)%nat) by (apply nth_error_Some; congruence).
    assert (ND' : NoDup (a :: P)) by (constructor; assumption).
    assert (IP' : incl (a :: P) (seq 0 (length st))) by (intros y [<-|Iy]; [apply in_seq; lia|auto]).
    pose proof (NoDup_incl_length ND' IP') as LP. rewrite seq_length in LP. cbn in LP.
    apply (IK (length st - S (length P))%nat ltac:(lia) (xdepth x) x s i (a :: P)); try assumption; try lia.
    + eapply bounded_inside; eassumption.
    + cbn. lia.
    + intros y [<-|Iy]; [apply h_one, I|eapply holds_inside_none; [apply HP, Iy|exact I]].
Qed.

Lemma xmval_ends_all v i : bounded v -> settles (fun n => xmval st omit n new_session v i).
Proof using.
  intros B. apply (xmval_settles (length st) (length st) (xdepth v) v new_session i []); auto; try lia.
  - constructor.
  - unfold unseen. rewrite <- (seq_length (length st) 0) at 2. apply Nat.eq_le_incl. f_equal.
    induction (seq 0 (length st)) as [|y l IH]; [reflexivity|]. cbn. rewrite IH. reflexivity.
  - constructor.
  - intros y [].
  - intros y [].
Qed.
End Ends.
