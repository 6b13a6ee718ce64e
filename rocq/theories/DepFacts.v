(** Facts about deprecated-by chains. *)
From Verif Require Import Base Strconv SortedMap SortedMapFacts Json Gotypes Marshal SpecMarshal.

Section Chains.
Context (tag : bytes -> option bytes).

Lemma leads_trans a b c : leads tag a b -> leads tag b c -> leads tag a c.
Proof. intros H1 H2. induction H1; [exact H2|]. eapply leads_step; eauto. Qed.

Lemma leads_closed (Q : bytes -> Prop) : (forall a b, Q a -> tag a = Some b -> Q b) -> forall a b, leads tag a b -> Q a -> Q b.
Proof. intros H a b L. induction L; intros Qa; [exact Qa|]. apply IHL. eapply H; eassumption. Qed.

(** Everything on the way from a name that comes back leads back to it. *)
Lemma returns_back a b : returns tag a -> leads tag a b -> leads tag b a.
Proof.
  intros (c & Tc & Lc) L. apply (leads_closed (fun x => leads tag x a)) with a; [|exact L|apply leads_refl].
  intros x y Lx Txy. inversion Lx as [|? x' ? Tx Lx']; subst; [congruence|]. congruence.
Qed.

Lemma ends_not_trapped a e : ends_at tag a e -> ~ trapped tag a.
Proof.
  intros [L N] (b & Lb & (c & Tc & Lc) & NL).
  (* every name reachable from b has a tag, and e is reachable from b or before it *)
  assert (forall x, leads tag x e -> leads tag x b -> leads tag b e \/ leads tag e b) as CMP.
  { intros x Lx. induction Lx as [x|x y z Txy Ly IH]; intros Lb'; [right; exact Lb'|].
    inversion Lb' as [|? y' ? Ty' Ly']; subst; [left; eapply leads_step; eassumption|].
    rewrite Txy in Ty'. injection Ty' as <-. apply IH; assumption. }
  destruct (CMP a L Lb) as [X|X].
  - assert (exists y, tag e = Some y) as [y Ty]; [|congruence].
    assert (leads tag b e -> leads tag e b) as BK by (apply returns_back; exists c; auto).
    specialize (BK X). inversion BK as [|? y ? Ty]; subst; eauto.
  - inversion X as [|? y ? Ty]; subst; [congruence|congruence].
Qed.

Lemma returns_not_trapped a : returns tag a -> ~ trapped tag a.
Proof. intros R (b & Lb & _ & NL). apply NL, returns_back; assumption. Qed.
End Chains.

Section Resolve.
Context (dep : smap bytes) (start : bytes).
Notation tag := (fun k => sm_get dep k).

Lemma resolve_sound n : forall k r, dep_resolve n dep start k = Some r ->
  match r with Some e => ends_at tag k e | None => exists x, leads tag k x /\ sm_get dep x = Some start end.
Proof.
  induction n as [|n IH]; intros k r E; [discriminate|]. cbn [dep_resolve] in E.
  destruct (sm_get dep k) as [o|] eqn:G.
  - destruct (bseq_spec o start) as [->|N].
    + injection E as <-. exists k. split; [apply leads_refl|exact G].
    + specialize (IH _ _ E). destruct r as [e|].
      * destruct IH as [L T]. split; [eapply leads_step; eassumption|exact T].
      * destruct IH as (x & L & T). exists x. split; [eapply leads_step; eassumption|exact T].
  - injection E as <-. split; [apply leads_refl|exact G].
Qed.

Lemma resolve_mono n : forall m k r, (n <= m)%nat -> dep_resolve n dep start k = Some r -> dep_resolve m dep start k = Some r.
Proof.
  induction n as [|n IH]; intros m k r L E; [discriminate|]. destruct m as [|m]; [lia|]. cbn [dep_resolve] in *.
  destruct (sm_get dep k) as [o|]; [|exact E]. destruct (bseq o start); [exact E|]. apply IH; [lia|exact E].
Qed.

(** A walk that has not found the end. *)
Inductive path : bytes -> list bytes -> Prop :=
| path_nil k : path k []
| path_cons k k' l : sm_get dep k = Some k' -> k' <> start -> path k' l -> path k (k :: l).

Lemma resolve_none n : forall k, dep_resolve n dep start k = None -> exists l, length l = n /\ path k l.
Proof.
  induction n as [|n IH]; intros k E; [exists []; split; [reflexivity|constructor]|]. cbn [dep_resolve] in E.
  destruct (sm_get dep k) as [o|] eqn:G; [|discriminate]. destruct (bseq_spec o start) as [->|N]; [discriminate|].
  destruct (IH _ E) as (l & L & P). exists (k :: l). split; [simpl; lia|econstructor; eassumption].
Qed.

Lemma path_dom k l : path k l -> incl l (sm_keys dep).
Proof.
  induction 1 as [|k k' l G N P IH]; [intros x []|]. intros x [<-|I]; [|apply IH, I].
  apply sm_get_some_in in G. apply (in_map fst) in G. exact G.
Qed.

Lemma path_app l1 : forall k k' l3, path k (l1 ++ k' :: l3) ->
  leads tag k k' /\ path k' (k' :: l3) /\ (l1 <> [] -> k' <> start) /\
  (forall x, In x l1 -> exists y, sm_get dep x = Some y /\ y <> start /\ In y (l1 ++ [k'])).
Proof.
  induction l1 as [|a l1 IH]; intros k k' l3 P; simpl in P.
  - inversion P; subst. repeat split; [apply leads_refl|exact P|congruence|intros x []].
  - inversion P as [|? k2 ? G N P2]; subst. destruct (IH _ _ _ P2) as (L & P3 & NE & C).
    split; [eapply leads_step; eassumption|]. split; [exact P3|]. split.
    + intros _. destruct l1 as [|b l1]; [|apply NE; discriminate]. simpl in P2. inversion P2; subst. exact N.
    + intros x [<-|I].
      * exists k2. split; [exact G|]. split; [exact N|]. right.
        destruct l1 as [|b l1]; simpl in P2; inversion P2; subst; left; reflexivity.
      * destruct (C x I) as (y & Gy & Ny & Iy). exists y. split; [exact Gy|]. split; [exact Ny|right; exact Iy].
Qed.

Lemma not_nodup_split (l : list bytes) : ~ NoDup l -> exists l1 b l2 l3, l = l1 ++ b :: l2 ++ b :: l3.
Proof.
  induction l as [|a l IH]; intros N; [exfalso; apply N; constructor|].
  destruct (in_dec (list_eq_dec Byte.byte_eq_dec) a l) as [I|NI].
  - apply in_split in I as (l2 & l3 & ->). exists [], a, l2, l3. reflexivity.
  - destruct IH as (l1 & b & l2 & l3 & ->).
    + intros ND. apply N. constructor; assumption.
    + exists (a :: l1), b, l2, l3. reflexivity.
Qed.

(** After as many steps as there are tags, the chain has ended, come back, or
    will never end. *)
Lemma resolve_bound key : sm_get dep start = Some key -> dep_resolve (S (length dep)) dep start key = None -> trapped tag start.
Proof.
  intros Gs E. apply resolve_none in E as (l & Ll & P).
  assert (~ NoDup l) as ND.
  { intros ND. pose proof (NoDup_incl_length ND (path_dom _ _ P)) as X. unfold sm_keys in X. rewrite map_length in X. lia. }
  destruct (not_nodup_split l ND) as (l1 & b & l2 & l3 & ->).
  destruct (path_app _ _ _ _ P) as (Lb & Pb & _ & _).
  change (b :: l2 ++ b :: l3) with ((b :: l2) ++ b :: l3) in Pb.
  destruct (path_app _ _ _ _ Pb) as (_ & _ & Nb & C). specialize (Nb ltac:(discriminate)).
  exists b. split; [eapply leads_step; [exact Gs|exact Lb]|]. split.
  - simpl in Pb. inversion Pb as [|? k2 ? G N P2]; subst. exists k2. split; [exact G|]. apply (path_app _ _ _ _ P2).
  - intros L. assert (In start (b :: l2) /\ start <> start) as [_ X]; [|congruence].
    apply (leads_closed tag (fun x => In x (b :: l2) /\ x <> start)) with b; [|exact L|split; [left; reflexivity|exact Nb]].
    intros x y [I _] T. destruct (C x I) as (y' & G' & N' & I'). assert (y' = y) as -> by congruence. split; [|exact N'].
    apply in_app_iff in I' as [I'|[<-|[]]]; [exact I'|left; reflexivity].
Qed.

Lemma resolve_trapped key n : sm_get dep start = Some key -> trapped tag start -> dep_resolve n dep start key = None.
Proof.
  intros Gs (b & Lb & (c & Tc & Lc) & NL).
  assert (forall n k, leads tag start k -> leads tag k b -> dep_resolve n dep start k = None) as G.
  { clear n. induction n as [|n IH]; intros k Lk Lkb; [reflexivity|]. cbn [dep_resolve].
    assert (exists o, sm_get dep k = Some o /\ leads tag o b) as (o & Go & Lo).
    { inversion Lkb as [|? o ? To Lo]; subst; [exists c; auto|exists o; auto]. }
    rewrite Go. destruct (bseq_spec o start) as [->|No].
    - exfalso. apply NL. apply returns_back; [|exact Lb].
      inversion Lk as [x E1 E2|x k2 y T2 L2 E1 E2].
      + exists start. split; [congruence|rewrite <- ?E2; apply leads_refl].
      + exists k2. split; [exact T2|]. eapply leads_trans; [exact L2|]. eapply leads_step; [exact Go|apply leads_refl].
    - apply IH; [|exact Lo]. eapply leads_trans; [exact Lk|]. eapply leads_step; [exact Go|apply leads_refl]. }
  apply G; [eapply leads_step; [exact Gs|apply leads_refl]|].
  inversion Lb as [x E1 E2|x k2 y T2 L2 E1 E2].
  - exfalso. apply NL. rewrite <- E2. apply leads_refl.
  - congruence.
Qed.
End Resolve.

(** ** The tags Marshal collects *)

Lemma m_fields_tags mv fs : forall s d s' ps d', m_fields mv s fs d = Some (s', ps, d') ->
  forall k, sm_get d' k = match tag_of fs k with Some x => Some x | None => sm_get d k end.
Proof.
  induction fs as [|[i v] fs IH]; intros s d s' ps d' E k; cbn [m_fields tag_of] in *; [injection E as <- <- <-; reflexivity|].
  destruct (fi_ignore i); [cbn [negb andb]; rewrite (IH _ _ _ _ _ E); destruct (tag_of fs k); reflexivity|]. cbn [negb andb].
  destruct (fi_deprecated_by i) as [x|] eqn:D.
  - rewrite (IH _ _ _ _ _ E), sm_get_add. destruct (tag_of fs k); [reflexivity|].
    destruct (bseq_spec (fi_name i) k) as [->|N]; [rewrite bseq_refl; reflexivity|].
    destruct (bseq_spec k (fi_name i)); [congruence|reflexivity].
  - destruct (mv s v (Some i)) as [[s1 r]|]; [|discriminate]. destruct (m_fields mv s1 fs d) as [[[s2 rs2] d2]|] eqn:E2; [|discriminate].
    injection E as <- <- <-. rewrite (IH _ _ _ _ _ E2). destruct (tag_of fs k); [reflexivity|]. destruct (bseq (fi_name i) k); reflexivity.
Qed.

Lemma m_fields_sorted mv fs : forall s d s' ps d', sm_ok d -> m_fields mv s fs d = Some (s', ps, d') -> sm_ok d'.
Proof.
  induction fs as [|[i v] fs IH]; intros s d s' ps d' O E; cbn [m_fields] in E; [injection E as <- <- <-; exact O|].
  destruct (fi_ignore i); [eapply IH; eassumption|]. destruct (fi_deprecated_by i).
  - eapply IH; [|exact E]. apply sm_add_ok, O.
  - destruct (mv s v (Some i)) as [[s1 r]|]; [|discriminate]. destruct (m_fields mv s1 fs d) as [[[s2 rs2] d2]|] eqn:E2; [|discriminate].
    injection E as <- <- <-. eapply IH; eassumption.
Qed.

Lemma dep_pairs_mono n m dep ps : (n <= m)%nat -> forall todo r, dep_pairs n dep todo ps = Some r -> dep_pairs m dep todo ps = Some r.
Proof.
  intros L. induction todo as [|[a b] todo IH]; intros r E; cbn [dep_pairs] in *; [exact E|].
  destruct (dep_resolve n dep a b) as [x|] eqn:R; [|discriminate]. rewrite (resolve_mono _ _ _ _ _ _ L R).
  destruct (dep_pairs n dep todo ps) as [rest|] eqn:P; [|discriminate]. rewrite (IH _ eq_refl). exact E.
Qed.

Lemma trapped_ext (t1 t2 : bytes -> option bytes) a : (forall k, t1 k = t2 k) -> trapped t1 a -> trapped t2 a.
Proof.
  intros X. assert (forall u v, leads t1 u v -> leads t2 u v) as L1.
  { intros u v H. induction H; [apply leads_refl|]. eapply leads_step; [rewrite <- X; eassumption|assumption]. }
  assert (forall u v, leads t2 u v -> leads t1 u v) as L2.
  { intros u v H. induction H; [apply leads_refl|]. eapply leads_step; [rewrite X; eassumption|assumption]. }
  intros (b & Lb & (c & Tc & Lc) & NL). exists b. split; [auto|]. split; [exists c; split; [rewrite <- X; exact Tc|auto]|]. auto.
Qed.

Lemma ends_ext (t1 t2 : bytes -> option bytes) a e : (forall k, t1 k = t2 k) -> ends_at t1 a e -> ends_at t2 a e.
Proof.
  intros X [L N]. split; [|rewrite <- X; exact N].
  clear N. induction L; [apply leads_refl|]. eapply leads_step; [rewrite <- X; eassumption|assumption].
Qed.

(** If no chain is trapped, as many steps as there are tags are enough. *)
Lemma dep_pairs_total dep ps : sm_ok dep -> (forall k, ~ trapped (fun k => sm_get dep k) k) ->
  forall todo, incl todo dep -> exists r, dep_pairs (S (length dep)) dep todo ps = Some r.
Proof.
  intros O NT. induction todo as [|[a b] todo IH]; intros I; cbn [dep_pairs]; [eauto|].
  assert (sm_get dep a = Some b) as G by (apply sm_get_in; [exact O|apply I; left; reflexivity]).
  destruct (dep_resolve (S (length dep)) dep a b) as [x|] eqn:R; [|exfalso; eapply NT, resolve_bound; eassumption].
  destruct IH as [r ->]; [intros y Hy; apply I; right; exact Hy|].
  destruct (match x with Some k => find_value ps k | None => None end); eauto.
Qed.
