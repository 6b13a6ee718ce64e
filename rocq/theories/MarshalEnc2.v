(** Marshal produces what SpecEncode asks for: the main induction. *)
From Coq Require Import Sorting.Permutation Relations.Relation_Operators Wellfounded.Transitive_Closure.
From Verif Require Import Base Strconv SortedMap SortedMapFacts Json SpecJson Printer Heap Gotypes Marshal SpecMarshal SpecEncode HeapFacts2 ParseInv MarshalFacts DepFacts MarshalEnc.

Section MjInd.
Variable P : mj -> Prop.
Hypothesis Hleaf : forall j, P (MLeaf j).
Hypothesis Harr : forall l, Forall P l -> P (MArr l).
Hypothesis Hdict : forall o kvs, Forall (fun kv => P (snd kv)) kvs -> P (MDict o kvs).
Fixpoint mj_ind' (m : mj) : P m :=
  match m with
  | MLeaf j => Hleaf j
  | MArr l => Harr l ((fix go (l : list mj) : Forall P l :=
                   match l with [] => Forall_nil P | x :: l' => Forall_cons x (mj_ind' x) (go l') end) l)
  | MDict o kvs => Hdict o kvs ((fix go (l : list (bytes * mj)) : Forall (fun kv => P (snd kv)) l :=
                   match l with [] => Forall_nil _ | x :: l' => Forall_cons x (mj_ind' (snd x)) (go l') end) kvs)
  end.
End MjInd.

Section Enc.
Context (st : store) (omit : bool) (pick : list Z -> Z).
Context (Hpick : forall l, l <> [] -> In (pick l) l).
Notation mval := (mval st omit).

Lemma set_ids_nil m : set_ids pick [] m = mj_text m.
Proof using.
  induction m as [j|l IH|o kvs IH] using mj_ind'; simpl.
  - reflexivity.
  - f_equal. induction IH as [|x l H _ IHl]; [reflexivity|]. simpl. rewrite H, IHl. reflexivity.
  - unfold node_id. assert (filter (referred []) o = []) as -> by (induction o; [reflexivity|assumption]). f_equal.
    induction IH as [|[k x] l H _ IHl]; [reflexivity|]. simpl in *. rewrite H, IHl. reflexivity.
Qed.

Definition add_owners (X : list Z) (m : mj) : mj := match m with MDict o kvs => MDict (o ++ X) kvs | _ => m end.

Lemma add_owners_nil m : add_owners [] m = m.
Proof using. destruct m; simpl; [reflexivity..|]. rewrite app_nil_r. reflexivity. Qed.

Lemma node_id_owned T o : node_id pick T o = 0 \/ In (node_id pick T o) o.
Proof using Hpick.
  unfold node_id. destruct (filter (referred T) o) as [|x l] eqn:E; [left; reflexivity|]. right.
  pose proof (Hpick (x :: l) ltac:(discriminate)) as I. rewrite <- E in I. apply filter_In in I as [I _]. rewrite <- E. exact I.
Qed.

(** ** Which object each node id stands for *)

Definition agrees (f : Z -> option addr) (t : list tentry) : Prop := forall e, In e t -> f (te_id e) = Some (te_addr e).
Definition agrees_with (f : Z -> option addr) (L : list (Z * addr)) : Prop := forall n a, In (n, a) L -> f n = Some a.

Definition never (a : addr) : Prop := forall i, ~ dropped st i (GPtr (Some a)).

Definition log (s s' : session) (L : list (Z * addr)) : Prop :=
  s_idx s <= s_idx s' /\
  Forall (fun p => s_idx s < fst p <= s_idx s') L /\ NoDup (map fst L) /\
  forall e, In e (s_trace s') ->
    (exists e0, In e0 (s_trace s) /\ te_id e0 = te_id e /\ te_addr e0 = te_addr e) \/
    (In (te_id e, te_addr e) L /\ never (te_addr e)).

Lemma log_same s s' : s_idx s <= s_idx s' -> (forall e, In e (s_trace s') -> exists e0, In e0 (s_trace s) /\ te_id e0 = te_id e /\ te_addr e0 = te_addr e) -> log s s' [].
Proof using. intros L H. split; [exact L|]. split; [constructor|]. split; [constructor|]. intros e I. left. apply H, I. Qed.

Lemma log_refl s : log s s [].
Proof using. apply log_same; [lia|]. intros e I. exists e. auto. Qed.

Lemma log_trans s s1 s2 L1 L2 : log s s1 L1 -> log s1 s2 L2 -> log s s2 (L1 ++ L2).
Proof using.
  intros (A1 & B1 & C1 & D1) (A2 & B2 & C2 & D2). split; [lia|]. split; [|split].
  - apply Forall_app. split; (eapply Forall_impl; [|eassumption]); simpl; lia.
  - rewrite map_app. apply ParseInv.NoDup_app_iff; split; [assumption|]; split; [assumption|]. intros n I1 I2. apply in_map_iff in I1 as ([n1 a1] & E1 & I1), I2 as ([n2 a2] & E2 & I2).
    simpl in *. subst. rewrite Forall_forall in B1, B2. specialize (B1 _ I1). specialize (B2 _ I2). simpl in *. lia.
  - intros e I. destruct (D2 e I) as [(e1 & I1 & X1 & Y1)|[I1 N1]].
    + destruct (D1 e1 I1) as [(e0 & I0 & X0 & Y0)|[I0 N0]].
      * left. exists e0. split; [exact I0|]. split; congruence.
      * right. rewrite X1, Y1 in *. split; [apply in_or_app; left; exact I0|exact N0].
    + right. split; [apply in_or_app; right; exact I1|exact N1].
Qed.

Lemma log_agrees f s s' L : log s s' L -> agrees f (s_trace s) -> agrees_with f L -> agrees f (s_trace s').
Proof using.
  intros (_ & _ & _ & D) A W e I. destruct (D e I) as [(e0 & I0 & X0 & Y0)|[I0 _]].
  - rewrite <- X0, <- Y0. apply A, I0.
  - apply W, I0.
Qed.

Lemma agrees_with_app f L1 L2 : agrees_with f (L1 ++ L2) -> agrees_with f L1 /\ agrees_with f L2.
Proof using. intros H. split; intros n a I; apply H, in_or_app; auto. Qed.

(** An object on the trace that would be left out is not reached any more. *)
Definition good (s : session) (v : gval) : Prop :=
  forall a i, In a (map te_addr (s_trace s)) -> dropped st i (GPtr (Some a)) -> ~ reach st (GPtr (Some a)) v.

Lemma good_log s s' L v : log s s' L -> good s v -> good s' v.
Proof using.
  intros (_ & _ & _ & D) G a i I Dr. apply in_map_iff in I as (e & <- & I). destruct (D e I) as [(e0 & I0 & _ & Y0)|[_ N]].
  - eapply G; [|exact Dr]. rewrite <- Y0. apply in_map, I0.
  - destruct (N _ Dr).
Qed.

Lemma good_child s v w : good s v -> child st w v -> good s w.
Proof using. intros G C a i I D R. apply (G a i I D). eapply reach_child; eassumption. Qed.

(** ** The claim about one call *)

Definition correct (mv : session -> gval -> option finfo -> option (session * option mj)) (v : gval) : Prop :=
  forall s i s' r, counts_ok s -> good s v -> mv s v i = Some (s', r) ->
  counts_ok s' /\ (r = None <-> omit = true /\ dropped st i v) /\
  exists L, log s s' L /\ forall f, agrees f (s_trace s) -> agrees_with f L ->
    forall T m own X, r = Some m -> (forall x, In x X -> exists a, f x = Some a /\ In a own) ->
    encodes st omit f own i v (set_ids pick T (add_owners X m)).

Lemma kept (r : option mj) i v : (r = None <-> omit = true /\ dropped st i v) -> r <> None -> ~ (omit = true /\ dropped st i v).
Proof using. intros H N D. apply N, H, D. Qed.

Lemma m_elems_correct mv l : (forall v, In v l -> correct mv v) -> forall s s' rs, counts_ok s -> (forall v, In v l -> good s v) ->
  m_elems mv s l = Some (s', rs) ->
  counts_ok s' /\ exists L, log s s' L /\ forall f, agrees f (s_trace s) -> agrees_with f L ->
    forall T, enc_elems st omit f l (map (set_ids pick T) rs).
Proof using.
  induction l as [|v l IH]; intros H s s' rs C G E; cbn [m_elems] in E.
  - injection E as <- <-. split; [exact C|]. exists []. split; [apply log_refl|]. intros. constructor.
  - destruct (mv s v None) as [[s1 r]|] eqn:E1; [|discriminate]. destruct (m_elems mv s1 l) as [[s2 rs2]|] eqn:E2; [|discriminate].
    injection E as <- <-. destruct (H v (or_introl eq_refl) s None s1 r C (G v (or_introl eq_refl)) E1) as (C1 & D & L1 & LG1 & F1).
    destruct (IH (fun w I => H w (or_intror I)) s1 s2 rs2 C1) as (C2 & L2 & LG2 & F2); [|exact E2|].
    { intros w I. eapply good_log; [exact LG1|apply G; right; exact I]. }
    split; [exact C2|]. exists (L1 ++ L2). split; [eapply log_trans; eassumption|]. intros f A W T.
    apply agrees_with_app in W as [W1 W2]. specialize (F2 f (log_agrees _ _ _ _ LG1 A W1) W2 T).
    destruct r as [m|].
    + simpl. apply El_keep; [eapply kept; [exact D|discriminate]| |exact F2].
      rewrite <- (add_owners_nil m). apply (F1 f A W1 T m [] []); [reflexivity|intros x []].
    + destruct (proj1 D eq_refl) as [O Dr]. apply El_drop; assumption.
Qed.

Notation set_pairs T ps := (map (fun kv : bytes * mj => (fst kv, set_ids pick T (snd kv))) ps).

Lemma m_members_correct mv (l : list (bytes * gval)) : (forall k v, In (k, v) l -> correct mv v) -> forall s s' rs, counts_ok s ->
  (forall k v, In (k, v) l -> good s v) -> m_members mv s l = Some (s', rs) ->
  counts_ok s' /\ exists L, log s s' L /\ forall f, agrees f (s_trace s) -> agrees_with f L ->
    forall T, enc_members st omit f l (set_pairs T rs).
Proof using.
  induction l as [|[k v] l IH]; intros H s s' rs C G E; cbn [m_members] in E.
  - injection E as <- <-. split; [exact C|]. exists []. split; [apply log_refl|]. intros. constructor.
  - destruct (mv s v None) as [[s1 r]|] eqn:E1; [|discriminate]. destruct (m_members mv s1 l) as [[s2 rs2]|] eqn:E2; [|discriminate].
    injection E as <- <-. destruct (H k v (or_introl eq_refl) s None s1 r C (G k v (or_introl eq_refl)) E1) as (C1 & D & L1 & LG1 & F1).
    destruct (IH (fun k w I => H k w (or_intror I)) s1 s2 rs2 C1) as (C2 & L2 & LG2 & F2); [|exact E2|].
    { intros k' w I. eapply good_log; [exact LG1|eapply G; right; exact I]. }
    split; [exact C2|]. exists (L1 ++ L2). split; [eapply log_trans; eassumption|]. intros f A W T.
    apply agrees_with_app in W as [W1 W2]. specialize (F2 f (log_agrees _ _ _ _ LG1 A W1) W2 T).
    destruct r as [m|].
    + simpl. apply Em_keep; [eapply kept; [exact D|discriminate]| |exact F2].
      rewrite <- (add_owners_nil m). apply (F1 f A W1 T m [] []); [reflexivity|intros x []].
    + destruct (proj1 D eq_refl) as [O Dr]. apply Em_drop; assumption.
Qed.

Lemma m_fields_correct mv (l : list (finfo * gval)) : (forall x v, In (x, v) l -> fi_ignore x = false -> fi_deprecated_by x = None -> correct mv v) ->
  forall s d s' rs d', counts_ok s ->
  (forall x v, In (x, v) l -> fi_ignore x = false -> fi_deprecated_by x = None -> good s v) -> m_fields mv s l d = Some (s', rs, d') ->
  counts_ok s' /\ exists L, log s s' L /\ forall f, agrees f (s_trace s) -> agrees_with f L ->
    forall T, enc_fields st omit f l (set_pairs T rs).
Proof using.
  induction l as [|[x v] l IH]; intros H s d s' rs d' C G E; cbn [m_fields] in E.
  - injection E as <- <- <-. split; [exact C|]. exists []. split; [apply log_refl|]. intros. constructor.
  - assert (forall y w, In (y, w) l -> fi_ignore y = false -> fi_deprecated_by y = None -> correct mv w) as H' by (intros y w I; apply H; right; exact I).
    destruct (fi_ignore x) eqn:Ig.
    { destruct (IH H' s d s' rs d' C) as (C2 & L2 & LG2 & F2); [|exact E|]; [intros y w I; apply G; right; exact I|].
      split; [exact C2|]. exists L2. split; [exact LG2|]. intros f A W T. apply Ef_ignored; [exact Ig|]. apply F2; assumption. }
    destruct (fi_deprecated_by x) eqn:Dp.
    { destruct (IH H' s (sm_add d (fi_name x) b) s' rs d' C) as (C2 & L2 & LG2 & F2); [|exact E|]; [intros y w I; apply G; right; exact I|].
      split; [exact C2|]. exists L2. split; [exact LG2|]. intros f A W T. apply Ef_deprecated; [congruence|]. apply F2; assumption. }
    destruct (mv s v (Some x)) as [[s1 r]|] eqn:E1; [|discriminate]. destruct (m_fields mv s1 l d) as [[[s2 rs2] d2]|] eqn:E2; [|discriminate].
    injection E as <- <- <-. destruct (H x v (or_introl eq_refl) Ig Dp s (Some x) s1 r C (G x v (or_introl eq_refl) Ig Dp) E1) as (C1 & D & L1 & LG1 & F1).
    destruct (IH H' s1 d s2 rs2 d2 C1) as (C2 & L2 & LG2 & F2); [|exact E2|].
    { intros y w I Y1 Y2. eapply good_log; [exact LG1|eapply G; [right; exact I|assumption..]]. }
    split; [exact C2|]. exists (L1 ++ L2). split; [eapply log_trans; eassumption|]. intros f A W T.
    apply agrees_with_app in W as [W1 W2]. specialize (F2 f (log_agrees _ _ _ _ LG1 A W1) W2 T).
    destruct r as [m|].
    + simpl. apply Ef_keep; [exact Ig|exact Dp|eapply kept; [exact D|discriminate]| |exact F2].
      rewrite <- (add_owners_nil m). apply (F1 f A W1 T m [] []); [reflexivity|intros z []].
    + destruct (proj1 D eq_refl) as [O Dr]. apply Ef_drop; assumption.
Qed.

(** ** Dicts *)

Lemma last_pair_eq (ps : list (bytes * json)) k : last_pair ps k = last_binding ps k.
Proof using. induction ps as [|[k' j] ps IH]; simpl; [reflexivity|]. rewrite IH. reflexivity. Qed.

Lemma last_binding_map (g : mj -> json) ps k : last_binding (map (fun kv => (fst kv, g (snd kv))) ps) k = option_map g (last_binding ps k).
Proof using.
  induction ps as [|[k' j] ps IH]; simpl; [reflexivity|]. rewrite IH. destruct (last_binding ps k); simpl; [reflexivity|].
  destruct (bseq k k'); reflexivity.
Qed.
Lemma sm_get_map' (g : mj -> json) (m : smap mj) k : sm_get (map (fun kv => (fst kv, g (snd kv))) m) k = option_map g (sm_get m k).
Proof using. induction m as [|[k' j] m IH]; simpl; [reflexivity|]. destruct (bseq k k'); [reflexivity|exact IH]. Qed.
Lemma sm_ok_map' (g : mj -> json) (m : smap mj) : sm_ok m -> sm_ok (map (fun kv => (fst kv, g (snd kv))) m).
Proof using.
  unfold sm_ok, sm_keys. rewrite map_map. simpl. intros H. exact H.
Qed.

Lemma new_dict_of T ps : dict_of (set_pairs T ps) (set_pairs T (sm_of_list ps [])).
Proof using.
  split; [apply sm_ok_map', sm_of_list_ok, sm_ok_nil|]. intros k.
  rewrite sm_get_map', sm_of_list_get, last_pair_eq, last_binding_map. destruct (last_binding ps k); reflexivity.
Qed.

Lemma find_value_first T ps k : first_pair (set_pairs T ps) k = option_map (set_ids pick T) (find_value ps k).
Proof using. induction ps as [|[k' j] ps IH]; simpl; [reflexivity|]. destruct (bseq k' k); [reflexivity|exact IH]. Qed.

Lemma last_binding_app {V} (a b : list (bytes * V)) k :
  last_binding (a ++ b) k = match last_binding b k with Some v => Some v | None => last_binding a k end.
Proof using.
  induction a as [|[k' v] a IH]; simpl; [destruct (last_binding b k); reflexivity|]. rewrite IH.
  destruct (last_binding b k); reflexivity.
Qed.

Lemma ends_unique tag a e1 e2 : ends_at tag a e1 -> ends_at tag a e2 -> e1 = e2.
Proof using.
  intros [L N]. revert e2. induction L as [a|a b c T L IH]; intros e2 [L2 N2].
  - inversion L2 as [|? ? ? T2]; subst; [reflexivity|]. rewrite N in T2. discriminate.
  - inversion L2 as [|? b2 ? T2 L3]; subst; [rewrite N2 in T; discriminate|]. rewrite T in T2. injection T2 as <-. apply IH; [exact N|split; assumption].
Qed.

(** The pairs made for the deprecated names. *)
Lemma dep_pairs_spec n dep ps : sm_ok dep -> forall todo dps, sm_ok todo -> incl todo dep -> dep_pairs n dep todo ps = Some dps ->
  forall k, last_binding dps k = match sm_get todo k with
    | Some key => match dep_resolve n dep k key with Some (Some e) => find_value ps e | _ => None end
    | None => None
    end.
Proof using.
  intros O. induction todo as [|[a b] todo IH]; intros dps Ot I E k; cbn [dep_pairs] in E; [injection E as <-; reflexivity|].
  destruct (dep_resolve n dep a b) as [r|] eqn:R; [|discriminate].
  destruct (dep_pairs n dep todo ps) as [rest|] eqn:P; [|discriminate].
  apply sm_ok_cons in Ot as [Ot F]. specialize (IH rest Ot (fun x H => I x (or_intror H)) eq_refl k).
  assert (bseq k a = true -> last_binding rest k = None) as NR.
  { intros B. apply bseq_eq in B as ->. rewrite IH, (sm_get_lt_none _ _ F). reflexivity. }
  cbn [sm_get]. destruct (match r with Some k0 => find_value ps k0 | None => None end) as [v|] eqn:V; injection E as <-; cbn [last_binding].
  - destruct (bseq k a) eqn:B.
    + rewrite (NR eq_refl). apply bseq_eq in B as ->. rewrite R. destruct r; [symmetry; exact V|discriminate].
    + rewrite IH. destruct (match sm_get todo k with Some key => match dep_resolve n dep k key with Some (Some e) => find_value ps e | _ => None end | None => None end); reflexivity.
  - destruct (bseq k a) eqn:B; [|exact IH]. rewrite (NR eq_refl). apply bseq_eq in B as ->. rewrite R. destruct r; [symmetry; exact V|reflexivity].
Qed.

Lemma leads_ext (t1 t2 : bytes -> option bytes) a e : (forall k, t1 k = t2 k) -> leads t1 a e -> leads t2 a e.
Proof using. intros X L. induction L; [apply leads_refl|]. eapply leads_step; [rewrite <- X; eassumption|assumption]. Qed.

Lemma dep_pairs_each n dep ps todo dps : dep_pairs n dep todo ps = Some dps -> forall k key, In (k, key) todo -> dep_resolve n dep k key <> None.
Proof using.
  revert dps. induction todo as [|[a b] todo IH]; intros dps E k key I; [destruct I|]. cbn [dep_pairs] in E.
  destruct (dep_resolve n dep a b) as [r|] eqn:R; [|discriminate]. destruct (dep_pairs n dep todo ps) as [rest|]; [|discriminate].
  destruct I as [I|I]; [injection I as -> ->; congruence|]. eapply IH; [reflexivity|exact I].
Qed.

Lemma struct_dict_of n T fs mv s s' ps dep dps : m_fields mv s fs [] = Some (s', ps, dep) -> dep_pairs n dep dep ps = Some dps ->
  struct_dict (tag_of fs) (set_pairs T ps) (set_pairs T (sm_of_list (ps ++ dps) [])).
Proof using.
  intros E P. pose proof (m_fields_sorted _ _ _ _ _ _ _ sm_ok_nil E) as O.
  assert (forall k, sm_get dep k = tag_of fs k) as TG.
  { intros k. rewrite (m_fields_tags _ _ _ _ _ _ _ E). destruct (tag_of fs k); reflexivity. }
  split; [apply sm_ok_map', sm_of_list_ok, sm_ok_nil|]. intros k j.
  rewrite sm_get_map', sm_of_list_get, last_binding_app, last_pair_eq, last_binding_map.
  rewrite (dep_pairs_spec n dep ps O dep dps O (incl_refl _) P k), TG.
  assert (forall j0, alias (tag_of fs) (set_pairs T ps) k j0 <->
    option_map (set_ids pick T) (match tag_of fs k with Some key => match dep_resolve n dep k key with Some (Some e) => find_value ps e | _ => None end | None => None end) = Some j0) as AL.
  { intros j0. destruct (tag_of fs k) as [key|] eqn:K.
    - rewrite <- TG in K. pose proof (dep_pairs_each _ _ _ _ _ P k key (proj1 (sm_get_in _ _ _ O) K)) as NR.
      destruct (dep_resolve n dep k key) as [[e|]|] eqn:R; [| |destruct (NR eq_refl)].
      + apply resolve_sound in R. assert (ends_at (tag_of fs) k e) as EA.
        { eapply (ends_ext (fun k => sm_get dep k)); [exact TG|]. destruct R as [L N]. split; [|exact N]. eapply leads_step; eassumption. }
        split.
        * intros (_ & e' & EA' & F). rewrite (ends_unique _ _ _ _ EA' EA), find_value_first in F. exact F.
        * intros F. split; [rewrite <- TG, K; discriminate|]. exists e. split; [exact EA|]. rewrite find_value_first. exact F.
      + apply resolve_sound in R as (x & Lx & Gx). split; [|discriminate]. intros (_ & e & EA & _). exfalso.
        assert (returns (tag_of fs) k) as RT.
        { exists key. rewrite <- TG. split; [exact K|]. eapply leads_trans; [eapply leads_ext; [exact TG|exact Lx]|].
          eapply leads_step; [rewrite <- TG; exact Gx|apply leads_refl]. }
        destruct EA as [Le Ne]. pose proof (returns_back _ _ _ RT Le) as B. inversion B as [|? ? ? T1]; subst; [|rewrite Ne in T1; discriminate].
        rewrite <- TG in Ne. rewrite K in Ne. discriminate.
    - split; [|discriminate]. intros (N & _). destruct (N K). }
  rewrite AL. destruct (match tag_of fs k with Some key => match dep_resolve n dep k key with Some (Some e) => find_value ps e | _ => None end | None => None end) as [w|]; cbn [option_map].
  - split; [intros H; left; exact H|]. intros [H|[N _]]; [exact H|]. exfalso. apply N. eexists. apply AL. reflexivity.
  - replace (match last_binding ps k with Some v => Some v | None => sm_get [] k end) with (last_binding ps k) by (destruct (last_binding ps k); reflexivity).
    split; [intros H; right; split; [|exact H]; intros (j' & A); apply AL in A; discriminate|]. intros [H|[_ H]]; [discriminate|exact H].
Qed.

(** ** The main induction *)

Lemma forced_flag i : forced i = flag i fi_force_string.
Proof using. destruct i; reflexivity. Qed.

Lemma finish_enc f T own X i v m0 m : ~ is_nil v ->
  match v with GSlice _ | GArray _ | GMap _ | GStruct _ => True | _ => False end ->
  finish_container i m0 = Some m ->
  (forall i' T' X' own', forced i' = false -> (forall x, In x X' -> exists a, f x = Some a /\ In a own') ->
     encodes st omit f own' i' v (set_ids pick T' (add_owners X' m0))) ->
  (forall x, In x X -> exists a, f x = Some a /\ In a own) ->
  encodes st omit f own i v (set_ids pick T (add_owners X m)).
Proof using.
  intros NN CT FC H HX. unfold finish_container in FC. destruct (flag i fi_force_string) eqn:F; injection FC as <-.
  - cbn [add_owners set_ids]. apply E_text; [rewrite forced_flag; exact F|exact NN|exact CT|].
    rewrite <- set_ids_nil, <- (add_owners_nil m0). apply H; [reflexivity|intros x []].
  - apply H; [rewrite forced_flag; exact F|exact HX].
Qed.

Lemma owned_dict f own X T : (forall x, In x X -> exists a, f x = Some a /\ In a own) -> owned f own (node_id pick T ([] ++ X)).
Proof using Hpick.
  intros H. destruct (node_id_owned T ([] ++ X)) as [E|I]; [left; exact E|right]. simpl in I. apply H, I.
Qed.

Lemma reach_dropped u w : reach st u w -> (exists j, dropped st j w) -> exists j, dropped st j u.
Proof using.
  intros [->|R]; [auto|]. induction R as [x y CH|x y z _ IH1 _ IH2]; [|auto]. intros [j Dj].
  inversion Dj as [? ? N|? ? ? ?|? ? ? ?|? ?|? ? ? N|? fs ? H|? b u Nb Db|? u Du]; subst; inversion CH; subst;
    try match goal with H : is_nil _ |- _ => destruct H end.
  - destruct l; [match goal with H : In _ [] |- _ => destruct H end|destruct N].
  - destruct l; [match goal with H : In _ [] |- _ => destruct H end|destruct N].
  - destruct m; [match goal with H : In _ [] |- _ => destruct H end|destruct N].
  - destruct N.
  - destruct N.
  - destruct N.
  - eexists. eapply H; eassumption.
  - match goal with H : nth_error st b = Some _ |- _ => rewrite Nb in H; injection H as <- end. eauto.
  - eauto.
Qed.

Lemma mval_correct n : forall v, correct (mval n) v.
Proof using Hpick.
  induction n as [|n IH]; intros v s i s' r C G E; [discriminate|].
  assert (counts_ok s') as C' by (eapply ext_counts; [eapply mval_ext; eassumption|exact C]).
  split; [exact C'|].
  assert (r = None <-> omit = true /\ dropped st i v) as DR.
  { split; [intros ->; eapply none_dropped; exact E|]. intros [O D]. eapply (dropped_trace st omit (S n)); [exact D| |exact E|reflexivity|exact O].
    intros a Ia R. destruct (reach_dropped _ _ R (ex_intro _ i D)) as [j Dj]. exact (G a j Ia Dj R). }
  split; [exact DR|]. cbn [Marshal.mval] in E.
  assert (forall l, (v = GSlice (Some l) \/ v = GArray l) -> match l with
          | [] => if flag i fi_omit_empty && omit then Some (s, None) else Some (s, finish_container i (MArr []))
          | _ => match m_elems (mval n) s l with
                 | Some (s1, rs) => Some (s1, finish_container i (MArr rs))
                 | None => None
                 end
          end = Some (s', r) -> exists L, log s s' L /\ forall f, agrees f (s_trace s) -> agrees_with f L ->
    forall T m own X, r = Some m -> (forall x, In x X -> exists a, f x = Some a /\ In a own) ->
    encodes st omit f own i v (set_ids pick T (add_owners X m))) as SL.
  { intros l Hv X.
    assert (forall f rs, (forall T, enc_elems st omit f l (map (set_ids pick T) rs)) -> forall T own X0 m,
      finish_container i (MArr rs) = Some m -> (forall x, In x X0 -> exists a, f x = Some a /\ In a own) ->
      encodes st omit f own i v (set_ids pick T (add_owners X0 m))) as FIN.
    { intros f rs EN T own X0 m FC HX. eapply finish_enc; [| |exact FC| |exact HX].
      - destruct Hv as [-> | ->]; exact (fun H => H).
      - destruct Hv as [-> | ->]; exact I.
      - intros i' T' X' own' Fi _. cbn [add_owners set_ids]. destruct Hv as [-> | ->]; [apply E_slice|apply E_array]; auto. }
    assert (exists rs, m_elems (mval n) s l = Some (s', rs) /\ (r = None \/ r = finish_container i (MArr rs))) as (rs & EE & RR).
    { destruct l as [|x l]; [destruct (flag i fi_omit_empty && omit); injection X as <- <-; exists []; auto|].
      destruct (m_elems (mval n) s (x :: l)) as [[s1 rs]|] eqn:E1; [|discriminate]. injection X as <- <-. eauto. }
    destruct (m_elems_correct (mval n) l (fun w _ => IH w) s s' rs C) with (2 := EE) as (_ & L & LG & F).
    { intros w Iw. eapply good_child; [exact G|]. destruct Hv as [-> | ->]; constructor; exact Iw. }
    exists L. split; [exact LG|]. intros f A W T m own X0 -> HX. destruct RR as [RR|RR]; [discriminate|].
    eapply FIN; [apply F; assumption|symmetry; exact RR|exact HX]. }
  assert (forall j, s' = s -> r = Some (MLeaf j) -> (forall f own, encodes st omit f own i v j) -> exists L, log s s' L /\ forall f, agrees f (s_trace s) -> agrees_with f L ->
    forall T m own X, r = Some m -> (forall x, In x X -> exists a, f x = Some a /\ In a own) ->
    encodes st omit f own i v (set_ids pick T (add_owners X m))) as LEAF.
  { intros j -> Er H. exists []. split; [apply log_refl|]. intros f _ _ T m own X Em _. rewrite Er in Em. injection Em as <-. apply H. }
  assert (s' = s -> r = None -> exists L, log s s' L /\ forall f, agrees f (s_trace s) -> agrees_with f L ->
    forall T m own X, r = Some m -> (forall x, In x X -> exists a, f x = Some a /\ In a own) ->
    encodes st omit f own i v (set_ids pick T (add_owners X m))) as GONE.
  { intros -> ->. exists []. split; [apply log_refl|]. intros. discriminate. }
  assert (forall o, Some (s, o) = Some (s', r) -> s' = s /\ r = o) as PAIR by (intros o X; split; congruence).
  assert (is_nil v -> forall o, o = nil_or_null omit -> Some (s, o) = Some (s', r) -> exists L, log s s' L /\ forall f, agrees f (s_trace s) -> agrees_with f L ->
    forall T m own X, r = Some m -> (forall x, In x X -> exists a, f x = Some a /\ In a own) ->
    encodes st omit f own i v (set_ids pick T (add_owners X m))) as NIL.
  { intros N o -> X. apply PAIR in X as [X Y]. unfold nil_or_null in Y. destruct omit; [apply GONE; assumption|].
    eapply LEAF; [exact X|exact Y|]. intros. apply E_nil, N. }
  destruct v as [b|k z|bit f|x|t|t|[l|]|l|[m|]|fs|[a|]|[x|]|[j|]|[j|]|j|j|];
    try (eapply (NIL I); [reflexivity|exact E]).
  - apply PAIR in E as [Es Er]. unfold marshal_bool in Er. destruct (negb b && flag i fi_omit_false && omit); [apply GONE; assumption|].
    pose proof (fun f own => E_bool st omit f own i b) as H. rewrite forced_flag in H. destruct (flag i fi_force_string); eapply LEAF; eassumption.
  - apply PAIR in E as [Es Er]. unfold marshal_int in Er. destruct ((wrap (Signed 64) z =? 0) && flag i fi_omit_zero && omit); [apply GONE; assumption|].
    pose proof (fun f own => E_int st omit f own i k z) as H. cbv zeta in H. rewrite forced_flag in H. destruct (flag i fi_force_string); eapply LEAF; eassumption.
  - apply PAIR in E as [Es Er]. unfold marshal_float in Er. destruct (fl_is_zero f && flag i fi_omit_zero && omit); [apply GONE; assumption|].
    pose proof (fun g own => E_float st omit g own i bit f) as H. rewrite forced_flag in H. destruct (flag i fi_force_string); eapply LEAF; eassumption.
  - apply PAIR in E as [Es Er]. destruct x as [|c x]; [destruct (flag i fi_omit_empty && omit) eqn:FE; simpl in Er; rewrite FE in Er|]; [apply GONE; assumption|..];
      (eapply LEAF; [exact Es|exact Er|intros; apply E_string]).
  - destruct t as [b|]; [|eapply (NIL I); [reflexivity|exact E]]. apply PAIR in E as [Es Er]. eapply LEAF; [exact Es|exact Er|intros; apply E_tri].
  - apply PAIR in E as [Es Er]. destruct t as [x|]; [|destruct (flag i fi_omit_empty && omit) eqn:FE; simpl in Er; rewrite FE in Er; [apply GONE; assumption|]];
      (eapply LEAF; [exact Es|exact Er|intros; apply (E_time st omit _ _ i)]).
  - apply (SL l); [left; reflexivity|exact E].
  - apply (SL l); [right; reflexivity|exact E].
  - assert (exists rs, m_members (mval n) s m = Some (s', rs) /\ (r = None \/ r = finish_container i (new_dict rs))) as (rs & EE & RR).
    { destruct m as [|x m]; [destruct (flag i fi_omit_empty && omit); injection E as <- <-; exists []; auto|].
      destruct (m_members (mval n) s (x :: m)) as [[s1 rs]|] eqn:E1; [|discriminate]. injection E as <- <-. eauto. }
    destruct (m_members_correct (mval n) m (fun _ w _ => IH w) s s' rs C) with (2 := EE) as (_ & L & LG & F).
    { intros k w Iw. eapply good_child; [exact G|]. econstructor. exact Iw. }
    exists L. split; [exact LG|]. intros f A W T m0 own X0 -> HX. destruct RR as [RR|RR]; [discriminate|].
    eapply finish_enc; [exact (fun H => H)|exact I|symmetry; exact RR| |exact HX].
    intros i' T' X' own' Fi HX'. cbn [add_owners set_ids new_dict]. eapply E_map; [exact Fi|apply F; assumption|apply new_dict_of|apply owned_dict; assumption].
  - destruct (m_fields (mval n) s fs []) as [[[s1 ps] dep]|] eqn:E1; [|discriminate].
    destruct (dep_pairs n dep dep ps) as [dps|] eqn:E2; [|discriminate].
    assert (s' = s1 /\ (r = None \/ r = finish_container i (new_dict (ps ++ dps)))) as [-> RR].
    { destruct (ps ++ dps); [destruct (flag i fi_omit_empty && omit)|]; injection E as <- <-; auto. }
    destruct (m_fields_correct (mval n) fs (fun _ w _ _ _ => IH w) s [] s1 ps dep C) with (2 := E1) as (_ & L & LG & F).
    { intros x w Iw I1 I2. eapply good_child; [exact G|]. econstructor; eassumption. }
    exists L. split; [exact LG|]. intros f A W T m0 own X0 -> HX. destruct RR as [RR|RR]; [discriminate|].
    eapply finish_enc; [exact (fun H => H)|exact I|symmetry; exact RR| |exact HX].
    intros i' T' X' own' Fi HX'. cbn [add_owners set_ids new_dict]. eapply E_struct; [exact Fi|apply F; assumption|eapply struct_dict_of; eassumption|apply owned_dict; assumption].
  - destruct (tr_find None (s_trace s) a) as [t [id|]] eqn:Ft.
    + assert (s' = {| s_idx := s_idx s; s_trace := t |} /\ r = Some (MLeaf (JPtr id))) as [-> ->] by (split; congruence).
      destruct (tr_find_spec _ _ _ _ _ Ft) as (B & _ & R & _). destruct (R id eq_refl) as [X|(e & Ie & Ea & Ei)]; [discriminate|].
      exists []. split.
      * apply log_same; [simpl; lia|]. intros e' I'. simpl in I'. clear - B I'. induction B as [|x y l l' (X1 & X2 & _) _ IHB]; [destruct I'|].
        destruct I' as [<-|I']; [exists x; split; [left; reflexivity|split; congruence]|]. destruct (IHB I') as (e0 & I0 & Y). exists e0. split; [right; exact I0|exact Y].
      * intros f A _ T m own X Em _. injection Em as <-. cbn. apply E_ref. rewrite <- Ei, <- Ea. apply A, Ie.
    + pose proof (tr_find_miss _ _ _ Ft) as ->. cbn in E. destruct (nth_error st a) as [x|] eqn:N; [|discriminate].
      set (s1 := {| s_idx := s_idx s + 1; s_trace := s_trace s ++ [{| te_addr := a; te_id := s_idx s + 1; te_cnt := 1 |}] |}) in E.
      destruct (mval n s1 x i) as [[s2 r2]|] eqn:E1; [|discriminate].
      assert (s' = {| s_idx := s_idx s2; s_trace := tr_pop (s_trace s2) |} /\ r = set_owner (s_idx s + 1) r2) as [Es Er] by (split; congruence).
      assert (counts_ok s1) as C1 by (eapply counts_push; [exact C|apply bumped_refl]).
      assert (good s1 x) as G1.
      { intros b j Ib Db. subst s1. simpl in Ib. rewrite map_app in Ib. apply in_app_or in Ib as [Ib|[<-|[]]].
        - eapply good_child; [exact G|constructor; exact N|exact Ib|exact Db].
        - simpl in *. eapply no_cycle; eassumption. }
      destruct (IH x s1 i s2 r2 C1 G1 E1) as (C2 & D2 & L & LG & F).
      exists ((s_idx s + 1, a) :: L). split.
      * (* the log *)
        pose proof LG as (LI & LF & LN & LT). subst s'. split; [simpl in *; lia|]. split; [|split].
        -- constructor; [simpl in *; lia|]. eapply Forall_impl; [|exact LF]. intros p. simpl. lia.
        -- cbn [map fst]. constructor; [|exact LN]. intros X. apply in_map_iff in X as ([n0 a0] & X & Y). rewrite Forall_forall in LF.
           specialize (LF _ Y). simpl in *. lia.
        -- intros e Ie. simpl in Ie.
           assert (In e (s_trace s2)) as Ie2.
           { clear - Ie. revert Ie. generalize (s_trace s2). intros t. induction t as [|y t IHt]; [auto|].
             destruct t as [|z t]; simpl; [destruct (te_cnt y =? 1); [intros []|auto]|]. intros [->|H]; [auto|]. right. apply IHt, H. }
           destruct (LT e Ie2) as [(e0 & I0 & X0 & Y0)|[I0 N0]]; [|right; split; [right; exact I0|exact N0]].
           simpl in I0. apply in_app_or in I0 as [I0|[<-|[]]]; [left; exists e0; auto|]. simpl in X0, Y0. right.
           split; [left; congruence|]. rewrite <- Y0. intros j Dj.
           (* an object that would be left out is popped *)
           assert (s_trace s2 = s_trace s1) as TR.
           { eapply (dropped_trace st omit n s1 x i j s2 r2); [eapply dropped_ptr; eassumption| |exact E1].
             intros b Ib R. assert (reach st (GPtr (Some b)) (GPtr (Some a))) as RA by (eapply reach_child; [exact R|constructor; exact N]).
             destruct (Nat.eq_dec b a) as [->|NE]; [eapply no_cycle; eassumption|].
             assert (exists j', dropped st j' (GPtr (Some b))) as [j' Dj'].
             { apply (reach_dropped _ _ RA). eauto. }
             subst s1. simpl in Ib. rewrite map_app in Ib. apply in_app_or in Ib as [Ib|[Ib|[]]]; [|simpl in Ib; congruence].
             exact (G b j' Ib Dj' RA). }
           rewrite TR in Ie. subst s1. simpl in Ie. rewrite tr_pop_last in Ie. simpl in Ie.
           destruct (tr_find_spec _ _ _ _ _ Ft) as (_ & _ & _ & NF). destruct (proj1 NF eq_refl) as [_ NF1]. apply NF1. rewrite Y0. apply in_map, Ie.
      * intros f A W T m own X Em HX. rewrite Er in Em. destruct r2 as [m2|]; [|discriminate].
        assert (agrees f (s_trace s1)) as A1.
        { intros e Ie. subst s1. simpl in Ie. apply in_app_or in Ie as [Ie|[<-|[]]]; [apply A, Ie|]. simpl. apply W. left. reflexivity. }
        assert (f (s_idx s + 1) = Some a) as FA by (apply W; left; reflexivity).
        specialize (F f A1 (fun n0 a0 I0 => W n0 a0 (or_intror I0)) T m2 (a :: own) (s_idx s + 1 :: X) eq_refl).
        assert (add_owners X m = add_owners (s_idx s + 1 :: X) m2) as ->.
        { destruct m2; injection Em as <-; simpl; try reflexivity. rewrite <- app_assoc. reflexivity. }
        eapply E_ptr; [exact N|]. apply F. intros y [<-|Iy]; [exists a; split; [exact FA|left; reflexivity]|].
        destruct (HX y Iy) as (b & Fb & Ib). exists b. split; [exact Fb|right; exact Ib].
  - destruct (IH x s i s' r C) as (_ & _ & L & LG & F); [eapply good_child; [exact G|constructor]|exact E|].
    exists L. split; [exact LG|]. intros f A W T m own X Em HX. apply E_iface. apply F; assumption.
  - assert (s' = {| s_idx := s_idx s + 1; s_trace := s_trace s |} /\ r = Some (MLeaf j)) as [-> ->] by (split; congruence).
    exists []. split; [apply log_same; [simpl; lia|]; intros e Ie; exists e; auto|]. intros f _ _ T m own X Em _. injection Em as <-. apply E_json_ptr.
  - apply PAIR in E as [Es Er]. eapply LEAF; [exact Es|exact Er|intros; apply E_json_obj].
  - apply PAIR in E as [Es Er]. unfold marshal_json_val in Er. destruct (json_empty j && flag i fi_omit_empty && omit); [apply GONE; assumption|].
    eapply LEAF; [exact Es|exact Er|intros; apply E_json_val].
  - apply PAIR in E as [Es Er]. eapply LEAF; [exact Es|exact Er|intros; apply E_std].
  - apply PAIR in E as [Es Er]. eapply LEAF; [exact Es|exact Er|intros; apply E_other].
Qed.
End Enc.
