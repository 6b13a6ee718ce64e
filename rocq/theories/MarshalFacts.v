(** Facts about Marshal: the session. *)
From Coq Require Import Sorting.Permutation.
From Verif Require Import Base Strconv SortedMap SortedMapFacts Json SpecJson Printer Heap Gotypes Marshal SpecMarshal HeapFacts2.

(** ** The trace *)

Definition bumped1 (e e' : tentry) : Prop := te_addr e' = te_addr e /\ te_id e' = te_id e /\ te_cnt e <= te_cnt e'.
Definition bumped (t t' : list tentry) : Prop := Forall2 bumped1 t t'.

Lemma bumped_refl t : bumped t t.
Proof. induction t; constructor; [repeat split; lia|assumption]. Qed.

Lemma bumped_trans a b c : bumped a b -> bumped b c -> bumped a c.
Proof.
  intros H. revert c. induction H as [|x y a b (E1 & E2 & E3) _ IH]; intros c H2; inversion H2 as [|? z ? c' (F1 & F2 & F3) H3]; subst; constructor.
  - repeat split; try congruence. lia.
  - apply IH, H3.
Qed.

Lemma bumped_addrs t t' : bumped t t' -> map te_addr t' = map te_addr t.
Proof. intros H. induction H as [|x y a b (E & _) _ IH]; [reflexivity|]. simpl. rewrite E, IH. reflexivity. Qed.
Lemma bumped_ids t t' : bumped t t' -> map te_id t' = map te_id t.
Proof. intros H. induction H as [|x y a b (_ & E & _) _ IH]; [reflexivity|]. simpl. rewrite E, IH. reflexivity. Qed.

Lemma bumped_in t t' e : bumped t t' -> In e t -> exists e', In e' t' /\ te_id e' = te_id e /\ te_addr e' = te_addr e /\ te_cnt e <= te_cnt e'.
Proof.
  intros H. induction H as [|x y a b (E1 & E2 & E3) _ IH]; intros I; [destruct I|]. destruct I as [<-|I].
  - exists y. repeat split; auto. left. reflexivity.
  - destruct (IH I) as (e' & I' & R). exists e'. split; [right; exact I'|exact R].
Qed.

(** find leaves addresses and ids, and answers with an entry it has bumped. *)
Lemma tr_find_spec t : forall ret a t' r, tr_find ret t a = (t', r) ->
  bumped t t' /\
  (ret <> None -> Forall2 (fun e e' => e' = bump e) t t') /\
  (forall id, r = Some id -> ret = Some id \/ exists e, In e t /\ te_addr e = a /\ te_id e = id) /\
  (r = None <-> ret = None /\ ~ In a (map te_addr t)).
Proof.
  induction t as [|e t IH]; intros ret a t' r E; cbn [tr_find] in E.
  - injection E as <- <-. split; [constructor|]. split; [intros; constructor|]. split; [auto|].
    split; [intros ->; split; [reflexivity|intros []]|intros [-> _]; reflexivity].
  - destruct (Nat.eqb_spec (te_addr e) a) as [Ea|Ea].
    + destruct (tr_find (Some (te_id e)) t a) as [t1 r1] eqn:E1. injection E as <- <-.
      destruct (IH _ _ _ _ E1) as (B & A & R & N). split; [constructor; [repeat split; simpl; lia|exact B]|].
      split; [intros _; constructor; [reflexivity|apply A; discriminate]|]. split.
      * intros id Er. destruct (R id Er) as [X|(e2 & I & X)]; [|right; exists e2; split; [right; exact I|exact X]].
        injection X as <-. right. exists e. split; [left; reflexivity|auto].
      * split; [intros X; apply N in X as [X _]; discriminate|]. intros [_ X]. exfalso. apply X. left. exact Ea.
    + destruct (tr_find ret t a) as [t1 r1] eqn:E1. injection E as <- <-.
      destruct (IH _ _ _ _ E1) as (B & A & R & N).
      split; [constructor; [destruct ret; repeat split; simpl; lia|exact B]|].
      split; [intros X; constructor; [destruct ret; [reflexivity|congruence]|apply A, X]|]. split.
      * intros id Er. destruct (R id Er) as [X|(e2 & I & X)]; [left; exact X|right; exists e2; split; [right; exact I|exact X]].
      * rewrite N. simpl. tauto.
Qed.

Lemma tr_find_hit t : forall ret a t' id, tr_find ret t a = (t', Some id) -> ret = None -> Forall (fun e => 1 <= te_cnt e) t ->
  exists e, In e t' /\ te_id e = id /\ 1 < te_cnt e /\ (forall pre, t' = pre ++ [last t' e] -> 1 < te_cnt (last t' e)) /\ t' <> [].
Proof.
  induction t as [|e t IH]; intros ret a t' id E -> P; cbn [tr_find] in E; [discriminate|]. inversion P as [|? ? Pe Pt]; subst.
  destruct (Nat.eqb_spec (te_addr e) a) as [Ea|Ea].
  - destruct (tr_find (Some (te_id e)) t a) as [t1 r1] eqn:E1. injection E as <- ->.
    destruct (tr_find_spec _ _ _ _ _ E1) as (B & A & R & N). specialize (A ltac:(discriminate)).
    assert (Forall (fun x => 1 < te_cnt x) (bump e :: t1)) as F.
    { constructor; [simpl; lia|]. clear -A Pt. induction A as [|x y l l' -> _ IH]; [constructor|]. inversion Pt; subst. constructor; [simpl; lia|auto]. }
    destruct (R id eq_refl) as [X|(e2 & I & X1 & X2)].
    + injection X as <-. exists (bump e). split; [left; reflexivity|]. split; [reflexivity|]. split; [simpl; lia|]. split; [|discriminate].
      intros pre X. rewrite X in F. apply Forall_app in F as [_ F]. inversion F; assumption.
    + destruct (bumped_in _ _ _ B I) as (e3 & I3 & Y1 & Y2 & Y3). exists e3. split; [right; exact I3|]. split; [congruence|].
      split; [rewrite Forall_forall in F; apply F; right; exact I3|]. split; [|discriminate].
      intros pre X. rewrite X in F. apply Forall_app in F as [_ F]. inversion F; assumption.
  - destruct (tr_find None t a) as [t1 r1] eqn:E1. injection E as <- ->.
    destruct (IH _ _ _ _ E1 eq_refl Pt) as (e2 & I & X1 & X2 & X3 & X4). exists e2. split; [right; exact I|]. split; [exact X1|].
    split; [exact X2|]. split; [|discriminate]. intros pre X. destruct t1 as [|y t1]; [congruence|].
    change (last (e :: y :: t1) e2) with (last (y :: t1) e2) in *. destruct pre as [|z pre]; [discriminate|].
    injection X as _ X. apply X3 with pre. exact X.
Qed.

(** The last entry of a trace has been referred to. *)
Definition sticky (t : list tentry) : Prop := t = [] \/ exists pre e, t = pre ++ [e] /\ 1 < te_cnt e.

Lemma tr_pop_last pre e : tr_pop (pre ++ [e]) = if te_cnt e =? 1 then pre else pre ++ [e].
Proof.
  induction pre as [|x pre IH]; simpl.
  - destruct (te_cnt e =? 1); reflexivity.
  - destruct (pre ++ [e]) as [|y l] eqn:E; [destruct pre; discriminate|]. rewrite IH. destruct (te_cnt e =? 1); reflexivity.
Qed.

(** ** How a call changes the session *)

Definition counts_ok (s : session) : Prop := Forall (fun e => 1 <= te_cnt e) (s_trace s).

(** The trace keeps its entries, perhaps bumped, and may have entries added
    behind them that stay for ever. *)
Definition ext (s s' : session) : Prop :=
  s_idx s <= s_idx s' /\
  exists t S, s_trace s' = t ++ S /\ bumped (s_trace s) t /\ sticky S /\
    Forall (fun e => s_idx s < te_id e <= s_idx s' /\ 1 <= te_cnt e) S.

Lemma ext_refl s : ext s s.
Proof.
  split; [lia|]. exists (s_trace s), []. rewrite app_nil_r. repeat split; [apply bumped_refl|left; reflexivity|constructor].
Qed.

Lemma sticky_bumped t t' : bumped t t' -> sticky t -> sticky t'.
Proof.
  intros B [->|(pre & e & -> & C)]; [inversion B; left; reflexivity|]. right.
  apply Forall2_app_inv_l in B as (p' & q & B1 & B2 & ->). inversion B2 as [|? e' ? ? (_ & _ & L) B3]; subst. inversion B3; subst.
  exists p', e'. split; [reflexivity|lia].
Qed.

Lemma ext_trans a b c : ext a b -> ext b c -> ext a c.
Proof.
  intros (L1 & t1 & S1 & E1 & B1 & K1 & F1) (L2 & t2 & S2 & E2 & B2 & K2 & F2). split; [lia|].
  rewrite E1 in B2. apply Forall2_app_inv_l in B2 as (t1' & S1' & B3 & B4 & ->).
  exists t1', (S1' ++ S2). rewrite app_assoc. split; [exact E2|]. split; [eapply bumped_trans; eassumption|]. split.
  - destruct K2 as [->|(pre & e & -> & C)]; [rewrite app_nil_r; eapply sticky_bumped; eassumption|].
    right. exists (S1' ++ pre), e. rewrite app_assoc. auto.
  - apply Forall_app. split.
    + clear -B4 F1 L2. induction B4 as [|x y l l' (X1 & X2 & X3) _ IH]; [constructor|]. inversion F1 as [|? ? [? ?] ?]; subst.
      constructor; [rewrite X2; lia|auto].
    + eapply Forall_impl; [|exact F2]. simpl. intros e He. lia.
Qed.

Lemma ext_counts a b : ext a b -> counts_ok a -> counts_ok b.
Proof.
  intros (_ & t & S & E & B & _ & F) C. unfold counts_ok in *. rewrite E. apply Forall_app. split.
  - clear -B C. induction B as [|x y l l' (_ & _ & X) _ IH]; [constructor|]. inversion C; subst. constructor; [lia|auto].
  - eapply Forall_impl; [|exact F]. simpl. intros e He. lia.
Qed.

(** Following a pointer: push, the call, pop. *)
Lemma ext_pointer s t a s2 : bumped (s_trace s) t ->
  ext {| s_idx := s_idx s + 1; s_trace := t ++ [{| te_addr := a; te_id := s_idx s + 1; te_cnt := 1 |}] |} s2 ->
  ext s {| s_idx := s_idx s2; s_trace := tr_pop (s_trace s2) |}.
Proof.
  intros B (L & t1 & S & E & B1 & K & F). simpl in *. split; [simpl; lia|]. simpl.
  apply Forall2_app_inv_l in B1 as (t2 & q & B2 & B3 & ->). inversion B3 as [|? e ? ? (X1 & X2 & X3) B4]; subst. inversion B4; subst.
  simpl in X1, X2, X3. rewrite <- app_assoc in E. simpl in E.
  assert (Forall (fun e0 => s_idx s < te_id e0 <= s_idx s2 /\ 1 <= te_cnt e0) (e :: S)) as FS.
  { constructor; [lia|]. eapply Forall_impl; [|exact F]. simpl. intros. lia. }
  assert (bumped (s_trace s) t2) as B5 by (eapply bumped_trans; eassumption).
  destruct K as [->|(pre & y & -> & C)].
  - rewrite E. change (t2 ++ [e]) with (t2 ++ [e]). rewrite tr_pop_last. destruct (Z.eqb_spec (te_cnt e) 1) as [C1|C1].
    + exists t2, []. rewrite app_nil_r. repeat split; [exact B5|left; reflexivity|constructor].
    + exists t2, [e]. repeat split; [exact B5|right; exists [], e; split; [reflexivity|lia]|exact FS].
  - rewrite E. change (t2 ++ e :: pre ++ [y]) with (t2 ++ (e :: pre) ++ [y]). rewrite app_assoc, tr_pop_last.
    destruct (Z.eqb_spec (te_cnt y) 1); [lia|]. exists t2, (e :: pre ++ [y]). rewrite <- app_assoc.
    repeat split; [exact B5|right; exists (e :: pre), y; auto|exact FS].
Qed.

Section MvalExt.
Context (mv : session -> gval -> option finfo -> option (session * option mj)).
Context (Hmv : forall s v i s' r, counts_ok s -> mv s v i = Some (s', r) -> ext s s').

Lemma m_elems_ext l : forall s s' rs, counts_ok s -> m_elems mv s l = Some (s', rs) -> ext s s'.
Proof using Hmv.
  induction l as [|v l IH]; intros s s' rs C E; cbn [m_elems] in E; [injection E as <- <-; apply ext_refl|].
  destruct (mv s v None) as [[s1 r]|] eqn:E1; [|discriminate]. destruct (m_elems mv s1 l) as [[s2 rs2]|] eqn:E2; [|discriminate].
  injection E as <- _. specialize (Hmv _ _ _ _ _ C E1). eapply ext_trans; [exact Hmv|]. eapply IH; [eapply ext_counts; eassumption|exact E2].
Qed.
Lemma m_members_ext l : forall s s' rs, counts_ok s -> m_members mv s l = Some (s', rs) -> ext s s'.
Proof using Hmv.
  induction l as [|[k v] l IH]; intros s s' rs C E; cbn [m_members] in E; [injection E as <- <-; apply ext_refl|].
  destruct (mv s v None) as [[s1 r]|] eqn:E1; [|discriminate]. destruct (m_members mv s1 l) as [[s2 rs2]|] eqn:E2; [|discriminate].
  injection E as <- _. specialize (Hmv _ _ _ _ _ C E1). eapply ext_trans; [exact Hmv|]. eapply IH; [eapply ext_counts; eassumption|exact E2].
Qed.
Lemma m_fields_ext l : forall s d s' rs d', counts_ok s -> m_fields mv s l d = Some (s', rs, d') -> ext s s'.
Proof using Hmv.
  induction l as [|[i v] l IH]; intros s d s' rs d' C E; cbn [m_fields] in E; [injection E as <- <- <-; apply ext_refl|].
  destruct (fi_ignore i); [eapply IH; eassumption|]. destruct (fi_deprecated_by i); [eapply IH; eassumption|].
  destruct (mv s v (Some i)) as [[s1 r]|] eqn:E1; [|discriminate]. destruct (m_fields mv s1 l d) as [[[s2 rs2] d2]|] eqn:E2; [|discriminate].
  injection E as <- _ _. specialize (Hmv _ _ _ _ _ C E1). eapply ext_trans; [exact Hmv|]. eapply IH; [eapply ext_counts; eassumption|exact E2].
Qed.
End MvalExt.

Lemma hit_ext s t a id : counts_ok s -> tr_find None (s_trace s) a = (t, Some id) -> ext s {| s_idx := s_idx s; s_trace := t |}.
Proof.
  intros C E. split; [simpl; lia|]. exists t, []. simpl. rewrite app_nil_r. split; [reflexivity|].
  split; [apply (tr_find_spec _ _ _ _ _ E)|]. split; [left; reflexivity|constructor].
Qed.

Lemma counts_push s t a id : counts_ok s -> bumped (s_trace s) t ->
  counts_ok {| s_idx := id; s_trace := t ++ [{| te_addr := a; te_id := id; te_cnt := 1 |}] |}.
Proof.
  intros C B. unfold counts_ok in *. simpl. apply Forall_app. split; [|constructor; [simpl; lia|constructor]].
  clear -B C. induction B as [|x y l l' (_ & _ & X) _ IH]; [constructor|]. inversion C; subst. constructor; [lia|auto].
Qed.

Lemma mval_ext st omit n : forall s v i s' r, counts_ok s -> mval st omit n s v i = Some (s', r) -> ext s s'.
Proof.
  induction n as [|n IH]; intros s v i s' r C E; [discriminate|]. cbn [mval] in E.
  assert (forall l, match l with
          | [] => if flag i fi_omit_empty && omit then Some (s, None) else Some (s, finish_container i (MArr []))
          | _ => match m_elems (mval st omit n) s l with
                 | Some (s1, rs) => Some (s1, finish_container i (MArr rs))
                 | None => None
                 end
          end = Some (s', r) -> ext s s') as SL.
  { intros l X. destruct l as [|x l]; [destruct (flag i fi_omit_empty && omit); injection X as <- _; apply ext_refl|].
    destruct (m_elems (mval st omit n) s (x :: l)) as [[s1 rs]|] eqn:E1; [|discriminate]. injection X as <- _.
    eapply m_elems_ext; [|exact C|exact E1]. exact IH. }
  destruct v as [b|k z|bit f|x|t|t|[l|]|l|[m|]|fs|[a|]|[x|]|[j|]|[j|]|j|j|];
    try (injection E as <- _; apply ext_refl); try (apply (SL l E)).
  - destruct m as [|x m]; [destruct (flag i fi_omit_empty && omit); injection E as <- _; apply ext_refl|].
    destruct (m_members (mval st omit n) s (x :: m)) as [[s1 ps]|] eqn:E1; [|discriminate]. injection E as <- _.
    eapply m_members_ext; [|exact C|exact E1]. exact IH.
  - destruct (m_fields (mval st omit n) s fs []) as [[[s1 ps] dep]|] eqn:E1; [|discriminate].
    destruct (dep_pairs n dep dep ps) as [dps|]; [|discriminate].
    assert (s' = s1) as -> by (destruct (ps ++ dps); [destruct (flag i fi_omit_empty && omit)|]; injection E as <- _; reflexivity).
    eapply m_fields_ext; [|exact C|exact E1]. exact IH.
  - destruct (tr_find None (s_trace s) a) as [t [id|]] eqn:F.
    + injection E as <- _. eapply hit_ext; eassumption.
    + cbn in E. destruct (nth_error st a) as [x|]; [|discriminate].
      match type of E with match mval _ _ _ ?s1 _ _ with _ => _ end = _ => destruct (mval st omit n s1 x i) as [[s2 r2]|] eqn:E1; [|discriminate] end.
      injection E as <- _. pose proof (proj1 (tr_find_spec _ _ _ _ _ F)) as B.
      eapply ext_pointer; [exact B|]. eapply IH; [|exact E1]. eapply counts_push; eassumption.
  - eapply IH; eassumption.
  - injection E as <- _. split; [simpl; lia|]. exists (s_trace s), []. simpl. rewrite app_nil_r.
    repeat split; [apply bumped_refl|left; reflexivity|constructor].
Qed.
