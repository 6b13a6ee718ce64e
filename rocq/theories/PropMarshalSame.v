(** C65: what Marshal returns depends on the contents of its argument alone. *)
From Coq Require Import Lia.
From Verif Require Import Base Strconv SortedMap Json Printer Heap Gotypes Marshal SpecMarshal SpecEncode SpecRestore SpecMarshalSame MarshalPlain PropMarshal.

Section Alike.
Context (R : addr -> addr -> Prop).

Lemma flat_alike_list l : (forall a, ~ In a (flat_map pointers l)) -> Forall2 (alike R) l l.
Proof using.
  induction l as [|x l IH]; intros H; constructor; [apply al_flat|apply IH]; intros a I; apply (H a); cbn; apply in_or_app; auto.
Qed.
Lemma flat_alike_pairs {K} (l : list (K * gval)) : (forall a, ~ In a (flat_map (fun kv => pointers (snd kv)) l)) ->
  Forall2 (fun x y => fst x = fst y /\ alike R (snd x) (snd y)) l l.
Proof using.
  induction l as [|x l IH]; intros H; constructor; [split; [reflexivity|apply al_flat]|apply IH]; intros a I; apply (H a); cbn; apply in_or_app; auto.
Qed.

(** What [alike] says for each form of value. *)
Lemma alike_inv v v' : alike R v v' ->
  match v with
  | GSlice (Some l) => exists l', v' = GSlice (Some l') /\ Forall2 (alike R) l l'
  | GArray l => exists l', v' = GArray l' /\ Forall2 (alike R) l l'
  | GMap (Some m) => exists m', v' = GMap (Some m') /\ Forall2 (fun x y => fst x = fst y /\ alike R (snd x) (snd y)) m m'
  | GStruct fs => exists fs', v' = GStruct fs' /\ Forall2 (fun x y => fst x = fst y /\ alike R (snd x) (snd y)) fs fs'
  | GPtr (Some a) => exists b, v' = GPtr (Some b) /\ R a b
  | GIface (Some x) => exists x', v' = GIface (Some x') /\ alike R x x'
  | _ => v' = v
  end.
Proof using.
  intros A. destruct A as [v F|l l' F|l l' F|m m' F|fs fs' F|a b F|v v' F]; eauto.
  destruct v as [| | | | | |[l|]|l|[m|]|fs|[a|]|[x|]| | | | |]; try reflexivity; eexists; (split; [reflexivity|]); cbn in F.
  - apply flat_alike_list, F.
  - apply flat_alike_list, F.
  - apply flat_alike_pairs, F.
  - apply flat_alike_pairs, F.
  - exfalso. apply (F a). left. reflexivity.
  - apply al_flat, F.
Qed.

(** ** Renamed variables *)
Section OneToOne.
Context (st st' : store) (omit : bool) (Hc : same_contents R st st') (H1 : one_to_one R).

Definition esame (e e' : tentry) : Prop := R (te_addr e) (te_addr e') /\ te_id e = te_id e' /\ te_cnt e = te_cnt e'.
Definition ssame (s s' : session) : Prop := s_idx s = s_idx s' /\ Forall2 esame (s_trace s) (s_trace s').
Definition rsame {A} (r r' : option (session * A)) : Prop :=
  match r, r' with
  | Some (s, x), Some (s', x') => ssame s s' /\ x = x'
  | None, None => True
  | _, _ => False
  end.

Lemma eqb_same a b x y : R a b -> R x y -> Nat.eqb x a = Nat.eqb y b.
Proof using H1.
  intros A B. destruct H1 as [F G]. destruct (Nat.eqb_spec x a) as [->|N]; destruct (Nat.eqb_spec y b) as [->|N']; try reflexivity.
  - exfalso. apply N'. eapply F; eassumption.
  - exfalso. apply N. eapply G; eassumption.
Qed.

Lemma find_same a b t t' : R a b -> Forall2 esame t t' -> forall ret,
  Forall2 esame (fst (tr_find ret t a)) (fst (tr_find ret t' b)) /\ snd (tr_find ret t a) = snd (tr_find ret t' b).
Proof using H1.
  intros Rab F. induction F as [|e e' t t' (E1 & E2 & E3) F IH]; intros ret; [split; [constructor|reflexivity]|].
  cbn [tr_find]. rewrite (eqb_same _ _ _ _ Rab E1), E2.
  destruct (IH (if Nat.eqb (te_addr e') b then Some (te_id e') else ret)) as [I1 I2].
  destruct (tr_find _ t a) as [t1 r1], (tr_find _ t' b) as [t2 r2]. cbn in *. split; [|exact I2]. constructor; [|exact I1].
  destruct (Nat.eqb (te_addr e') b); [|destruct ret]; (split; [exact E1|split; [exact E2|cbn; congruence]]).
Qed.
Lemma pop_same t t' : Forall2 esame t t' -> Forall2 esame (tr_pop t) (tr_pop t').
Proof using.
  induction 1 as [|e e' t t' E F IH]; [constructor|]. destruct F as [|x x' t t' E' F].
  - cbn. destruct E as (E1 & E2 & E3). rewrite E3. destruct (te_cnt e' =? 1); constructor; [|constructor]. repeat split; assumption.
  - change (tr_pop (e :: x :: t)) with (e :: tr_pop (x :: t)). change (tr_pop (e' :: x' :: t')) with (e' :: tr_pop (x' :: t')). constructor; assumption.
Qed.

Section Loops.
Context (mv mv' : session -> gval -> option finfo -> option (session * option mj)).
Hypothesis Hm : forall s s' v v' i, ssame s s' -> alike R v v' -> rsame (mv s v i) (mv' s' v' i).

Lemma elems_same l l' : Forall2 (alike R) l l' -> forall s s', ssame s s' -> rsame (m_elems mv s l) (m_elems mv' s' l').
Proof using Hm.
  induction 1 as [|v v' l l' A F IH]; intros s s' S; [split; [exact S|reflexivity]|]. cbn [m_elems].
  pose proof (Hm s s' v v' None S A) as X. destruct (mv s v None) as [[s1 r]|], (mv' s' v' None) as [[s1' r']|]; cbn in X; try contradiction; [|exact X].
  destruct X as [S1 <-]. specialize (IH s1 s1' S1). destruct (m_elems mv s1 l) as [[s2 rs]|], (m_elems mv' s1' l') as [[s2' rs']|]; cbn in IH; try contradiction; [|exact IH].
  destruct IH as [S2 <-]. split; [exact S2|reflexivity].
Qed.
Lemma members_same m m' : Forall2 (fun x y => fst x = fst y /\ alike R (snd x) (snd y)) m m' -> forall s s', ssame s s' -> rsame (m_members mv s m) (m_members mv' s' m').
Proof using Hm.
  induction 1 as [|[k v] [k' v'] l l' [E A] F IH]; intros s s' S; [split; [exact S|reflexivity]|]. cbn in E, A. subst k'. cbn [m_members].
  pose proof (Hm s s' v v' None S A) as X. destruct (mv s v None) as [[s1 r]|], (mv' s' v' None) as [[s1' r']|]; cbn in X; try contradiction; [|exact X].
  destruct X as [S1 <-]. specialize (IH s1 s1' S1). destruct (m_members mv s1 l) as [[s2 rs]|], (m_members mv' s1' l') as [[s2' rs']|]; cbn in IH; try contradiction; [|exact IH].
  destruct IH as [S2 <-]. split; [exact S2|reflexivity].
Qed.
Definition fsame (r r' : option (session * list (bytes * mj) * smap bytes)) : Prop :=
  match r, r' with
  | Some (s, x, d), Some (s', x', d') => ssame s s' /\ x = x' /\ d = d'
  | None, None => True
  | _, _ => False
  end.
Lemma fields_same m m' : Forall2 (fun x y => fst x = fst y /\ alike R (snd x) (snd y)) m m' -> forall s s' d, ssame s s' -> fsame (m_fields mv s m d) (m_fields mv' s' m' d).
Proof using Hm.
  induction 1 as [|[k v] [k' v'] l l' [E A] F IH]; intros s s' d S; [repeat split; apply S|]. cbn in E, A. subst k'. cbn [m_fields].
  destruct (fi_ignore k); [apply IH, S|]. destruct (fi_deprecated_by k); [apply IH, S|].
  pose proof (Hm s s' v v' (Some k) S A) as X. destruct (mv s v (Some k)) as [[s1 r]|], (mv' s' v' (Some k)) as [[s1' r']|]; cbn in X; try contradiction; [|exact X].
  destruct X as [S1 <-]. specialize (IH s1 s1' d S1). destruct (m_fields mv s1 l d) as [[[s2 rs] d2]|], (m_fields mv' s1' l' d) as [[[s2' rs'] d2']|]; cbn in IH; try contradiction; [|exact IH].
  destruct IH as (S2 & <- & <-). repeat split; apply S2.
Qed.
End Loops.

Lemma mval_same n : forall s s' v v' i, ssame s s' -> alike R v v' -> rsame (mval st omit n s v i) (mval st' omit n s' v' i).
Proof using Hc H1.
  induction n as [|n IH]; intros s s' v v' i S A; [exact Logic.I|].
  assert (Sl : forall l l', Forall2 (alike R) l l' ->
     rsame (match l with
            | [] => if flag i fi_omit_empty && omit then Some (s, None) else Some (s, finish_container i (MArr []))
            | _ => match m_elems (mval st omit n) s l with Some (s1, rs) => Some (s1, finish_container i (MArr rs)) | None => None end
            end)
           (match l' with
            | [] => if flag i fi_omit_empty && omit then Some (s', None) else Some (s', finish_container i (MArr []))
            | _ => match m_elems (mval st' omit n) s' l' with Some (s1, rs) => Some (s1, finish_container i (MArr rs)) | None => None end
            end)).
  { intros l l' F. pose proof (elems_same _ _ IH _ _ F s s' S) as X. destruct F as [|x y l l' E F].
    - destruct (flag i fi_omit_empty && omit); split; auto.
    - destruct (m_elems (mval st omit n) s (x :: l)) as [[s1 rs]|], (m_elems (mval st' omit n) s' (y :: l')) as [[s1' rs']|]; cbn in X; try contradiction; [|exact X].
      destruct X as [S1 <-]. split; [exact S1|reflexivity]. }
  pose proof (alike_inv _ _ A) as V. destruct v as [b|k z|bit f|x|t|t|[l|]|l|[m|]|fs|[a|]|[x|]|[j|]|[j|]|j|j|].
  all: try (subst v'; cbn; split; [exact S|reflexivity]).
  - destruct V as (l' & -> & F). cbn [mval]. apply Sl, F.
  - destruct V as (l' & -> & F). cbn [mval]. apply Sl, F.
  - destruct V as (m' & -> & F). cbn [mval]. pose proof (members_same _ _ IH _ _ F s s' S) as X. destruct F as [|x y m m' E F].
    + destruct (flag i fi_omit_empty && omit); split; auto.
    + destruct (m_members (mval st omit n) s (x :: m)) as [[s1 rs]|], (m_members (mval st' omit n) s' (y :: m')) as [[s1' rs']|]; cbn in X; try contradiction; [|exact X].
      destruct X as [S1 <-]. split; [exact S1|reflexivity].
  - destruct V as (fs' & -> & F). cbn [mval]. pose proof (fields_same _ _ IH _ _ F s s' [] S) as X.
    destruct (m_fields (mval st omit n) s fs []) as [[[s1 rs] d]|], (m_fields (mval st' omit n) s' fs' []) as [[[s1' rs'] d']|]; cbn in X; try contradiction; [|exact X].
    destruct X as (S1 & <- & <-). destruct (dep_pairs n d d rs) as [dps|]; [|exact Logic.I].
    destruct (rs ++ dps); [destruct (flag i fi_omit_empty && omit)|]; (split; [exact S1|reflexivity]).
  - destruct V as (b & -> & Rab). cbn [mval]. destruct S as [S1 S2]. destruct (find_same a b _ _ Rab S2 None) as [F1 F2].
    destruct (tr_find None (s_trace s) a) as [t r], (tr_find None (s_trace s') b) as [t' r']. cbn in F1, F2. subst r'.
    destruct r as [id|]; [split; [split; assumption|reflexivity]|].
    destruct (Hc a b Rab) as (x & x' & -> & -> & Ax). unfold new_pointer. cbn [s_idx s_trace]. rewrite S1.
    match goal with |- rsame (match mval st omit n ?p x i with _ => _ end) (match mval st' omit n ?q x' i with _ => _ end) => pose proof (IH p q x x' i) as X end.
    match type of X with ?P -> _ => assert (Y : P) end.
    { split; [reflexivity|]. cbn. apply Forall2_app; [exact F1|]. constructor; [|constructor]. repeat split; assumption. }
    specialize (X Y Ax). match goal with |- rsame (match ?p with _ => _ end) (match ?q with _ => _ end) => destruct p as [[s1 r]|], q as [[s1' r']|] end; cbn in X; try contradiction; [|exact X].
    destruct X as [[S3 S4] <-]. split; [split; [exact S3|apply pop_same, S4]|reflexivity].
  - destruct V as (x' & -> & Ax). cbn [mval]. apply IH; assumption.
  - subst v'. cbn. destruct S as [S1 S2]. split; [split; cbn; congruence || assumption|reflexivity].
Qed.

Lemma node_id_same pick t t' o : Forall2 esame t t' -> node_id pick t o = node_id pick t' o.
Proof using.
  intros F. unfold node_id. replace (filter (referred t') o) with (filter (referred t) o); [reflexivity|].
  apply filter_ext. intros id. unfold referred. induction F as [|e e' t t' (E1 & E2 & E3) F IH]; [reflexivity|]. cbn. rewrite E2, E3, IH. reflexivity.
Qed.
Lemma set_ids_same pick t t' : Forall2 esame t t' -> forall m, set_ids pick t m = set_ids pick t' m.
Proof using.
  intros F. fix IH 1. intros [j|l|o kvs]; cbn [set_ids]; [reflexivity|f_equal|].
  - induction l as [|x l IHl]; [reflexivity|]. cbn [map]. rewrite IH, IHl. reflexivity.
  - rewrite (node_id_same _ _ _ _ F). f_equal. induction kvs as [|[k x] l IHl]; [reflexivity|]. cbn [map fst snd]. rewrite IH, IHl. reflexivity.
Qed.

(** The argument may be anywhere in any memory: the same contents with the same
    sharing give the same result, for every choice among node ids, and one
    terminates if and only if the other does. *)
Theorem C65_same_graph pick n v v' : alike R v v' -> marshal_with omit pick n st (Some v) = marshal_with omit pick n st' (Some v').
Proof using Hc H1.
  intros A. pose proof (mval_same n new_session new_session v v' None (conj eq_refl (Forall2_nil _)) A) as X.
  unfold marshal_with. pose proof (alike_inv _ _ A) as V.
  assert (G : match mval st omit n new_session v None with Some (s, Some m) => Some (set_ids pick (s_trace s) m) | Some (s, None) => Some JNull | None => None end =
    match mval st' omit n new_session v' None with Some (s, Some m) => Some (set_ids pick (s_trace s) m) | Some (s, None) => Some JNull | None => None end).
  { destruct (mval st omit n new_session v None) as [[s r]|], (mval st' omit n new_session v' None) as [[s' r']|]; cbn in X; try contradiction; [|reflexivity].
    destruct X as [[_ S] <-]. destruct r; [rewrite (set_ids_same pick _ _ S)|]; reflexivity. }
  destruct v as [b|k z|bit f|x|t|t|[l|]|l|[m|]|fs|[a|]|[x|]|[j|]|[j|]|j|j|]; try (subst v'; exact G); try (subst v'; reflexivity); destruct V as (y & -> & _); exact G.
Qed.
End OneToOne.

(** ** No cycles: sharing does not matter *)
Section NoCycles.
Context (st st' : store) (omit : bool) (Hc : same_contents R st st').

Lemma t_elems_same tv tv' l l' : (forall v v' i, alike R v v' -> tv v i = tv' v' i) -> Forall2 (alike R) l l' -> t_elems tv l = t_elems tv' l'.
Proof using. intros H. induction 1 as [|v v' l l' A F IH]; [reflexivity|]. cbn. rewrite (H v v' None A), IH. reflexivity. Qed.
Lemma t_members_same tv tv' (l l' : list (bytes * gval)) : (forall v v' i, alike R v v' -> tv v i = tv' v' i) ->
  Forall2 (fun x y => fst x = fst y /\ alike R (snd x) (snd y)) l l' -> t_members tv l = t_members tv' l'.
Proof using. intros H. induction 1 as [|[k v] [k' v'] l l' [E A] F IH]; [reflexivity|]. cbn in *. subst k'. rewrite (H v v' None A), IH. reflexivity. Qed.
Lemma t_fields_same tv tv' (l l' : list (finfo * gval)) : (forall v v' i, alike R v v' -> tv v i = tv' v' i) ->
  Forall2 (fun x y => fst x = fst y /\ alike R (snd x) (snd y)) l l' -> forall d, t_fields tv l d = t_fields tv' l' d.
Proof using.
  intros H. induction 1 as [|[k v] [k' v'] l l' [E A] F IH]; intros d; [reflexivity|]. cbn in *. subst k'.
  rewrite (H v v' (Some k) A), !IH. destruct (fi_deprecated_by k); rewrite ?IH; reflexivity.
Qed.
Lemma tval_same n : forall v v' i, alike R v v' -> tval st omit n v i = tval st' omit n v' i.
Proof using Hc.
  induction n as [|n IH]; intros v v' i A; [reflexivity|]. pose proof (alike_inv _ _ A) as V.
  destruct v as [b|k z|bit f|x|t|t|[l|]|l|[m|]|fs|[a|]|[x|]|[j|]|[j|]|j|j|]; try (subst v'; reflexivity).
  - destruct V as (l' & -> & F). cbn [tval]. rewrite (t_elems_same _ _ _ _ IH F). destruct F; reflexivity.
  - destruct V as (l' & -> & F). cbn [tval]. rewrite (t_elems_same _ _ _ _ IH F). destruct F; reflexivity.
  - destruct V as (m' & -> & F). cbn [tval]. rewrite (t_members_same _ _ _ _ IH F). destruct F; reflexivity.
  - destruct V as (fs' & -> & F). cbn [tval]. rewrite (t_fields_same _ _ _ _ IH F). reflexivity.
  - destruct V as (b & -> & Rab). cbn [tval]. destruct (Hc a b Rab) as (x & x' & -> & -> & Ax). apply IH, Ax.
  - destruct V as (x' & -> & Ax). cbn [tval]. apply IH, Ax.
Qed.

(** Without cycles even what is shared makes no difference: the copy in which
    everything is separate gives the same. *)
Theorem C65_sharing pick n v v' : acyclic st -> acyclic st' -> alike R v v' -> marshal_with omit pick n st (Some v) = marshal_with omit pick n st' (Some v').
Proof using Hc.
  intros Ac Ac' A. rewrite !marshal_plain by assumption. rewrite (tval_same n v v' None A). pose proof (alike_inv _ _ A) as V.
  destruct v as [b|k z|bit f|x|t|t|[l|]|l|[m|]|fs|[a|]|[x|]|[j|]|[j|]|j|j|]; try (subst v'; reflexivity); destruct V as (y & -> & _); reflexivity.
Qed.
End NoCycles.
End Alike.

(** ** Variables that the argument does not lead to *)
Lemma alike_refl (P : addr -> Prop) v : (forall a, In a (pointers v) -> P a) -> alike (fun a b => a = b /\ P a) v v.
Proof.
  induction v as [b|k z|bit f|x|t|t| |l IH|l IH| |m IH|fs IH|[a|]| |x IH|j|j|j|j|] using gval_ind'; intros H; try (apply al_flat; intros ? X; exact X); cbn in H.
  - apply al_slice. induction IH as [|x l Hx F IHl]; constructor; [apply Hx|apply IHl]; intros a I; apply H; cbn; apply in_or_app; auto.
  - apply al_array. induction IH as [|x l Hx F IHl]; constructor; [apply Hx|apply IHl]; intros a I; apply H; cbn; apply in_or_app; auto.
  - apply al_map. induction IH as [|x l Hx F IHl]; constructor; [split; [reflexivity|apply Hx]|apply IHl]; intros a I; apply H; cbn; apply in_or_app; auto.
  - apply al_struct. induction IH as [|x l Hx F IHl]; constructor; [split; [reflexivity|apply Hx]|apply IHl]; intros a I; apply H; cbn; apply in_or_app; auto.
  - apply al_ptr. split; [reflexivity|]. apply H. left. reflexivity.
  - apply al_iface, IH, H.
Qed.

Theorem C65_elsewhere omit pick n st st' v :
  (forall a, leads_to st v a -> nth_error st a <> None /\ nth_error st' a = nth_error st a) ->
  marshal_with omit pick n st (Some v) = marshal_with omit pick n st' (Some v).
Proof.
  intros H. apply (C65_same_graph (fun a b => a = b /\ leads_to st v a)).
  - intros a b [<- L]. destruct (H a L) as [N E]. rewrite E. destruct (nth_error st a) as [x|] eqn:Ex; [|congruence].
    exists x, x. split; [reflexivity|]. split; [reflexivity|]. apply (alike_refl (leads_to st v)). intros b I. eapply lt_more; eassumption.
  - split; [intros a b b' [<- _] [<- _]; reflexivity|intros a a' b [<- _] [<- _]; reflexivity].
  - apply (alike_refl (leads_to st v)). intros a I. apply lt_here, I.
Qed.

(** ** Instances *)

(** The node {next: itself} and the same as the second of two variables. *)
Definition sm_ring : store := [GStruct [(plain (nm "next"), GPtr (Some 0%nat))]].
Definition sm_ring' : store := [GInt (Signed 64) 7; GStruct [(plain (nm "next"), GPtr (Some 1%nat))]].
Lemma sm_ring_same : same_contents (fun a b => a = 0%nat /\ b = 1%nat) sm_ring sm_ring'.
Proof.
  intros a b [-> ->]. eexists _, _. split; [reflexivity|]. split; [reflexivity|]. apply al_struct. constructor; [|constructor].
  split; [reflexivity|]. apply al_ptr. auto.
Qed.
Example C65_same_graph_case : forall pick n, marshal_with true pick n sm_ring (Some (GPtr (Some 0%nat))) = marshal_with true pick n sm_ring' (Some (GPtr (Some 1%nat))).
Proof.
  intros pick n. apply (C65_same_graph (fun a b => a = 0%nat /\ b = 1%nat)); [exact sm_ring_same|split; intros; intuition congruence|apply al_ptr; auto].
Qed.
Example sm_ring_text : marshal_with true (fun l => last l 0) 9 sm_ring (Some (GPtr (Some 0%nat))) = Some (JDict 1 [(nm "next", JPtr 1)]).
Proof. reflexivity. Qed.

(** Two pointers to one variable, and to two with the same contents. *)
Definition sm_pair (b : addr) : gval := GSlice (Some [GPtr (Some 0%nat); GPtr (Some b)]).
Example C65_sharing_case : forall pick n, marshal_with true pick n [GInt (Signed 64) 7] (Some (sm_pair 0)) = marshal_with true pick n [GInt (Signed 64) 7; GInt (Signed 64) 7] (Some (sm_pair 1)).
Proof.
  assert (Ac : forall st, Forall (fun x => x = GInt (Signed 64) 7) st -> acyclic st).
  { intros st F a P. assert (Q : forall b, path st a b -> False); [|exact (Q a P)]. intros b Pb.
    destruct Pb as [x b E I|b x c Pb E I]; apply nth_error_In in E; rewrite Forall_forall in F; apply F in E; subst x; exact I. }
  intros pick n. apply (C65_sharing (fun a b => a = 0%nat /\ (b < 2)%nat)).
  - intros a b [-> L]. destruct b as [|[|b]]; [| |exfalso; lia]; (eexists _, _; split; [reflexivity|]; split; [reflexivity|]; apply al_flat; intros ? []).
  - apply Ac. repeat constructor.
  - apply Ac. repeat constructor.
  - apply al_slice. constructor; [apply al_ptr; split; [reflexivity|lia]|constructor; [apply al_ptr; split; [reflexivity|lia]|constructor]].
Qed.
Example C65_elsewhere_case : forall pick n, marshal_with true pick n sm_ring (Some (GPtr (Some 0%nat))) = marshal_with true pick n (sm_ring ++ [GBool true]) (Some (GPtr (Some 0%nat))).
Proof.
  intros pick n. apply C65_elsewhere. intros a L.
  assert (E : a = 0%nat).
  { induction L as [a I|a x b L IH E I]; [destruct I as [<-|[]]; reflexivity|]. subst a. injection E as <-. destruct I as [<-|[]]. reflexivity. }
  subst a. split; [discriminate|reflexivity].
Qed.

(** With cycles sharing does matter: a ring of one node and a ring of two nodes
    show the same contents step by step, but their JSON differs. *)
Theorem C65_cycles_sharing_refuted : exists R st st' v v' pick n, chooses pick /\ same_contents R st st' /\ alike R v v' /\
  marshal_with true pick n st (Some v) <> None /\ marshal_with true pick n st (Some v) <> marshal_with true pick n st' (Some v').
Proof.
  exists (fun a b => a = 0%nat /\ (b < 2)%nat), sm_ring, [GStruct [(plain (nm "next"), GPtr (Some 1%nat))]; GStruct [(plain (nm "next"), GPtr (Some 0%nat))]],
    (GPtr (Some 0%nat)), (GPtr (Some 0%nat)), PropMarshal.hd, 20%nat.
  split; [apply hd_chooses|]. split; [|split; [apply al_ptr; split; [reflexivity|lia]|split; [discriminate|discriminate]]].
  intros a b [-> L]. destruct b as [|[|b]]; [| |exfalso; lia]; (eexists _, _; split; [reflexivity|]; split; [reflexivity|];
    apply al_struct; constructor; [split; [reflexivity|apply al_ptr; split; [reflexivity|lia]]|constructor]).
Qed.
