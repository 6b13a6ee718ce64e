(** Facts about objects, copies and clients. *)
From Coq Require Import Sorting.Permutation.
From Verif Require Import Base Strconv SortedMap SortedMapFacts Json SpecJson SpecEquals Access RfcFacts AccessFacts Heap SpecHeap.

(** ** Heaps *)

Lemma hwrite_length h : forall a c, length (hwrite h a c) = length h.
Proof. induction h as [|x h IH]; intros [|a] c; simpl; auto. Qed.

Lemma hwrite_same h : forall a c, (a < length h)%nat -> nth_error (hwrite h a c) a = Some c.
Proof. induction h as [|x h IH]; intros [|a] c L; simpl in *; try lia; [reflexivity|]. apply IH. lia. Qed.

Lemma hwrite_other h : forall a c b, b <> a -> nth_error (hwrite h a c) b = nth_error h b.
Proof.
  induction h as [|x h IH]; intros [|a] c [|b] N; simpl; try reflexivity; try congruence.
  apply IH. congruence.
Qed.

Lemma nth_error_lt {A} (h : list A) a c : nth_error h a = Some c -> (a < length h)%nat.
Proof. intros E. apply nth_error_Some. congruence. Qed.

Lemma halloc_old (h : heap) c a : (a < length h)%nat -> nth_error (h ++ [c]) a = nth_error h a.
Proof. intros L. apply nth_error_app1, L. Qed.

Lemma halloc_new (h : heap) c : nth_error (h ++ [c]) (length h) = Some c.
Proof. rewrite nth_error_app2 by lia. rewrite Nat.sub_diag. reflexivity. Qed.

(** ** Confinement *)

Definition closed (R : addr -> Prop) (h : heap) : Prop :=
  forall a c x, R a -> nth_error h a = Some c -> In (Some x) (cell_refs c) -> R x.

Definition fresh_in (R : addr -> Prop) (h : heap) : Prop := forall x, (length h <= x)%nat -> R x.

Definition conf (R : addr -> Prop) (h h' : heap) : Prop :=
  (length h <= length h')%nat /\ closed R h' /\ (forall a, ~ R a -> nth_error h' a = nth_error h a).

Definition refs_in (R : addr -> Prop) (rs : list ref) : Prop := forall x, In (Some x) rs -> R x.

Lemma conf_refl R h : closed R h -> conf R h h.
Proof. intros C. repeat split; auto. Qed.

Lemma conf_trans R h1 h2 h3 : conf R h1 h2 -> conf R h2 h3 -> conf R h1 h3.
Proof.
  intros (L1 & C1 & A1) (L2 & C2 & A2). repeat split; [lia|exact C2|].
  intros a N. rewrite A2, A1 by exact N. reflexivity.
Qed.

Lemma fresh_conf R h h' : fresh_in R h -> conf R h h' -> fresh_in R h'.
Proof. intros F (L & _ & _) x Hx. apply F. lia. Qed.

Lemma conf_alloc R h c : fresh_in R h -> closed R h -> refs_in R (cell_refs c) -> conf R h (h ++ [c]).
Proof.
  intros F C Rc. split; [rewrite app_length; lia|]. split.
  - intros a c' x Ra E I. destruct (Nat.lt_trichotomy a (length h)) as [L|[->|L]].
    + rewrite halloc_old in E by exact L. eapply C; eassumption.
    + rewrite halloc_new in E. injection E as <-. apply Rc, I.
    + apply nth_error_lt in E. rewrite app_length in E. simpl in E. lia.
  - intros a N. destruct (Nat.lt_ge_cases a (length h)) as [L|L]; [apply halloc_old, L|].
    exfalso. apply N, F, L.
Qed.

Lemma conf_write R h a c : closed R h -> R a -> refs_in R (cell_refs c) -> conf R h (hwrite h a c).
Proof.
  intros C Ra Rc. split; [rewrite hwrite_length; lia|]. split.
  - intros b c' x Rb E I. destruct (Nat.eq_dec b a) as [->|N].
    + pose proof (nth_error_lt _ _ _ E) as L. rewrite hwrite_length in L. rewrite hwrite_same in E by exact L.
      injection E as <-. apply Rc, I.
    + rewrite hwrite_other in E by exact N. eapply C; eassumption.
  - intros b N. apply hwrite_other. intros ->. contradiction.
Qed.

Lemma closed_refs R h a c : closed R h -> R a -> nth_error h a = Some c -> refs_in R (cell_refs c).
Proof. intros C Ra E x I. eapply C; eassumption. Qed.

Lemma get_dict_spec h a nid kvs : get_dict h a = Some (nid, kvs) -> nth_error h a = Some (CDict nid kvs).
Proof. unfold get_dict. destruct (nth_error h a) as [[]|]; try discriminate. intros E. congruence. Qed.
Lemma get_arr_spec h a rs : get_arr h a = Some rs -> nth_error h a = Some (CArray rs).
Proof. unfold get_arr. destruct (nth_error h a) as [[]|]; try discriminate. intros E. congruence. Qed.

Section SmRefs.
Context (R : addr -> Prop).
Definition mrefs (m : smap ref) : Prop := refs_in R (map snd m).

Lemma mrefs_add (m : smap ref) k v : mrefs m -> (forall x, v = Some x -> R x) -> mrefs (sm_add m k v).
Proof.
  intros H Hv x I. apply in_map_iff in I as ([k' r] & E & I). simpl in E. subst r.
  assert (In (k', Some x) m \/ Some x = v) as [I'|I'].
  { clear H Hv. induction m as [|[k0 v0] m IH]; simpl in I; [destruct I as [I|[]]; right; congruence|].
    destruct (bcmp k k0); simpl in I; destruct I as [I|I]; try (right; congruence); try (left; simpl; tauto).
    destruct (IH I); simpl; tauto. }
  - apply H. apply in_map_iff. exists (k', Some x). auto.
  - apply Hv. congruence.
Qed.

Lemma mrefs_sub (m m' : smap ref) : incl m' m -> mrefs m -> mrefs m'.
Proof. intros S H x I. apply H. apply in_map_iff in I as (p & E & I). apply in_map_iff. exists p. auto. Qed.

Lemma mrefs_of_list l : forall m, mrefs m -> (forall k x, In (k, Some x) l -> R x) -> mrefs (sm_of_list l m).
Proof.
  induction l as [|[k v] l IH]; intros m H Hl; [exact H|]. simpl. apply IH.
  - apply mrefs_add; [exact H|]. intros x ->. eapply Hl. left. reflexivity.
  - intros k' x I. eapply Hl. right. exact I.
Qed.

Lemma delete_ic_incl ceq (m : smap ref) k : incl (fst (sm_delete_ic ceq m k)) m.
Proof.
  induction m as [|[k' v] m IH]; simpl; [apply incl_refl|]. destruct (ceq k k'); simpl; [apply incl_tl, incl_refl|].
  destruct (sm_delete_ic ceq m k) as [r ok]. simpl in *. intros y [E|I]; [left; exact E|right; apply IH, I].
Qed.

Lemma remove_ic_incl ceq n : forall (m : smap ref) k, incl (h_remove_ic_loop n ceq m k) m.
Proof.
  induction n as [|n IH]; intros m k; simpl; [apply incl_refl|].
  pose proof (delete_ic_incl ceq m k) as H. destruct (sm_delete_ic ceq m k) as [m' ok]. simpl in H.
  destruct ok; [|exact H]. eapply incl_tran; [apply IH|exact H].
Qed.
End SmRefs.

(** ** DeepCopy only adds objects, which refer only to added objects *)

Definition adds (h h' : heap) : Prop :=
  exists new, h' = h ++ new /\
    Forall (fun c => forall x, In (Some x) (cell_refs c) -> (length h <= x < length h')%nat) new.

Lemma adds_refl h : adds h h.
Proof. exists []. rewrite app_nil_r. split; [reflexivity|constructor]. Qed.

Lemma adds_length h h' : adds h h' -> (length h <= length h')%nat.
Proof. intros (n & -> & _). rewrite app_length. lia. Qed.

Lemma adds_trans h1 h2 h3 : adds h1 h2 -> adds h2 h3 -> adds h1 h3.
Proof.
  intros H1 H2. pose proof (adds_length _ _ H1) as L1. pose proof (adds_length _ _ H2) as L2.
  destruct H1 as (n1 & -> & F1), H2 as (n2 & -> & F2). exists (n1 ++ n2). rewrite app_assoc. split; [reflexivity|].
  apply Forall_app. split; (eapply Forall_impl; [|eassumption]); simpl; intros c H x I; specialize (H x I); lia.
Qed.

Lemma adds_old h h' a : adds h h' -> (a < length h)%nat -> nth_error h' a = nth_error h a.
Proof. intros (n & -> & _) L. apply nth_error_app1, L. Qed.

Lemma adds_alloc h h1 c : adds h h1 -> (forall x, In (Some x) (cell_refs c) -> (length h <= x < length h1)%nat) ->
  adds h (h1 ++ [c]).
Proof.
  intros (n & -> & F) H. exists (n ++ [c]). rewrite app_assoc. split; [reflexivity|].
  apply Forall_app. split.
  - eapply Forall_impl; [|exact F]. simpl. intros c' Hc x I. specialize (Hc x I). rewrite app_length. simpl. lia.
  - constructor; [|constructor]. intros x I. specialize (H x I). rewrite app_length. simpl. lia.
Qed.

Section DeepCopyAdds.
Context (ord : heap -> list (bytes * ref) -> list (bytes * ref)).

Lemma copy_elems_adds (f : heap -> addr -> dres ref) : (forall h a h' r, f h a = DOk h' r -> adds h h' /\ (forall b, r = Some b -> (length h <= b < length h')%nat)) ->
  forall rs h h' rs', copy_elems f h rs = DOk h' rs' -> adds h h' /\ (forall b, In (Some b) rs' -> (length h <= b < length h')%nat).
Proof.
  intros Hf. induction rs as [|r rs IH]; intros h h' rs' E; simpl in E.
  - injection E as <- <-. split; [apply adds_refl|intros b []].
  - match type of E with match ?t with _ => _ end = _ => destruct t as [h1 r1| |] eqn:E1 end; try discriminate.
    destruct (copy_elems f h1 rs) as [h2 rs2| |] eqn:E2; try discriminate. injection E as <- <-.
    assert (adds h h1 /\ (forall b, r1 = Some b -> (length h <= b < length h1)%nat)) as [A1 B1].
    { destruct r as [x|]; [apply (Hf _ _ _ _ E1)|]. injection E1 as <- <-. split; [apply adds_refl|discriminate]. }
    destruct (IH _ _ _ E2) as [A2 B2]. pose proof (adds_length _ _ A1). pose proof (adds_length _ _ A2).
    split; [eapply adds_trans; eassumption|]. intros b [->|I]; [specialize (B1 b eq_refl)|specialize (B2 b I)]; lia.
Qed.

Lemma copy_members_adds (f : heap -> addr -> dres ref) : (forall h a h' r, f h a = DOk h' r -> adds h h' /\ (forall b, r = Some b -> (length h <= b < length h')%nat)) ->
  forall kvs h h' l, copy_members f h kvs = DOk h' l -> adds h h' /\ (forall k b, In (k, Some b) l -> (length h <= b < length h')%nat).
Proof.
  intros Hf. induction kvs as [|[k r] kvs IH]; intros h h' l E; simpl in E.
  - injection E as <- <-. split; [apply adds_refl|intros k b []].
  - match type of E with match ?t with _ => _ end = _ => destruct t as [h1 r1| |] eqn:E1 end; try discriminate.
    destruct (copy_members f h1 kvs) as [h2 rs2| |] eqn:E2; try discriminate. injection E as <- <-.
    assert (adds h h1 /\ (forall b, r1 = Some b -> (length h <= b < length h1)%nat)) as [A1 B1].
    { destruct r as [x|]; [apply (Hf _ _ _ _ E1)|]. injection E1 as <- <-. split; [apply adds_refl|discriminate]. }
    destruct (IH _ _ _ E2) as [A2 B2]. pose proof (adds_length _ _ A1). pose proof (adds_length _ _ A2).
    split; [eapply adds_trans; eassumption|].
    intros k' b [I|I]; [assert (r1 = Some b) as Eb by congruence; specialize (B1 b Eb)|specialize (B2 k' b I)]; lia.
Qed.

Lemma deep_copy_adds fuel : forall h a h' r, deep_copy ord fuel h a = DOk h' r ->
  adds h h' /\ (forall b, r = Some b -> (length h <= b < length h')%nat).
Proof.
  induction fuel as [|n IH]; intros h a h' r E; [discriminate|]. cbn [deep_copy] in E.
  assert (forall c, cell_refs c = [] -> forall h1 r1, DOk (h ++ [c]) (Some (length h)) = DOk h1 r1 ->
     adds h h1 /\ (forall b, r1 = Some b -> (length h <= b < length h1)%nat)) as SC.
  { intros c Hc h1 r1 X. injection X as <- <-. split; [apply adds_alloc; [apply adds_refl|rewrite Hc; intros x []]|].
    intros b Eb. injection Eb as <-. rewrite app_length. simpl. lia. }
  destruct (nth_error h a) as [c|]; [|discriminate].
  destruct c; try (eapply SC; [|exact E]; reflexivity).
  - destruct (copy_elems (deep_copy ord n) h rs) as [h1 rs'| |] eqn:E1; try discriminate. simpl in E. injection E as <- <-.
    destruct (copy_elems_adds _ IH _ _ _ _ E1) as [A B]. split.
    + apply adds_alloc; [exact A|exact B].
    + intros b Eb. injection Eb as <-. pose proof (adds_length _ _ A). rewrite app_length. simpl. lia.
  - match type of E with (if ?t then _ else _) = _ => destruct t; [discriminate|] end.
    destruct (copy_members (deep_copy ord n) h (ord h kvs)) as [h1 l| |] eqn:E1; try discriminate. simpl in E. injection E as <- <-.
    destruct (copy_members_adds _ IH _ _ _ _ E1) as [A B]. split.
    + apply adds_alloc; [exact A|]. simpl.
      apply (mrefs_of_list (fun x => (length h <= x < length h1)%nat)); [intros x []|exact B].
    + intros b Eb. injection Eb as <-. pose proof (adds_length _ _ A). rewrite app_length. simpl. lia.
  - injection E as <- <-. split; [apply adds_refl|discriminate].
Qed.
End DeepCopyAdds.

Lemma adds_conf R h h' : fresh_in R h -> closed R h -> adds h h' -> conf R h h'.
Proof.
  intros F C A. split; [apply adds_length, A|]. split.
  - intros a c x Ra E I. destruct (Nat.lt_ge_cases a (length h)) as [L|L].
    + rewrite (adds_old _ _ _ A L) in E. eapply C; eassumption.
    + destruct A as (n & -> & Fn). rewrite nth_error_app2 in E by exact L. apply nth_error_In in E.
      rewrite Forall_forall in Fn. apply F. apply (Fn _ E x I).
  - intros a N. destruct (Nat.lt_ge_cases a (length h)) as [L|L]; [apply adds_old; assumption|].
    exfalso. apply N, F, L.
Qed.

(** ** A client stays within what it can reach *)

Lemma in_sm_get (m : smap ref) k x : sm_get m k = Some (Some x) -> In (Some x) (map snd m).
Proof. intros E. apply sm_get_some_in in E. apply (in_map snd) in E. exact E. Qed.

Lemma h_add_path_conf isnull R keys : forall h a o key h' e, fresh_in R h -> closed R h -> R a -> (forall x, o = Some x -> R x) ->
  h_add_path isnull h a o key keys = Some (h', e) -> conf R h h'.
Proof.
  induction keys as [|key' keys IH]; intros h a o key h' e F C Ra Ro E; cbn [h_add_path] in E;
    destruct (get_dict h a) as [[nid kvs]|] eqn:G; try discriminate; apply get_dict_spec in G;
    pose proof (closed_refs _ _ _ _ C Ra G) as Rk; simpl in Rk.
  - injection E as <- <-. apply conf_write; [exact C|exact Ra|]. apply mrefs_add; assumption.
  - assert (conf R h (hwrite (h ++ [CDict 0 []]) a (CDict nid (sm_add kvs key (Some (length h)))))) as CF.
    { assert (conf R h (h ++ [CDict 0 []])) as C1 by (apply conf_alloc; [exact F|exact C|intros x []]).
      eapply conf_trans; [exact C1|]. apply conf_write; [apply C1|exact Ra|].
      apply mrefs_add; [exact Rk|]. intros x Ex. injection Ex as <-. apply F. lia. }
    assert (h_add_path isnull (hwrite (h ++ [CDict 0 []]) a (CDict nid (sm_add kvs key (Some (length h))))) (length h) o key' keys = Some (h', e) ->
      conf R h h') as FR.
    { intros E'. eapply conf_trans; [exact CF|]. eapply IH; [eapply fresh_conf; eassumption|apply CF| |exact Ro|exact E'].
      apply F. lia. }
    destruct (sm_get kvs key) as [[x|]|] eqn:Gk.
    + assert (R x) as Rx by (apply Rk; eapply in_sm_get, Gk).
      destruct (nth_error h x) as [c|]; [|injection E as <- <-; apply conf_refl, C].
      destruct c; try (injection E as <- <-; apply conf_refl, C);
        [destruct (isnull x); [apply FR, E|injection E as <- <-; apply conf_refl, C]|].
      eapply IH; [exact F|exact C|exact Rx|exact Ro|exact E].
    + injection E as <- <-. apply conf_refl, C.
    + apply FR, E.
Qed.

Lemma set_nth_in {A} (v : A) : forall l n l' x, set_nth n l v = Some l' -> In x l' -> x = v \/ In x l.
Proof.
  induction l as [|y l IH]; intros [|n] l' x E I; simpl in E; try discriminate.
  - injection E as <-. destruct I as [I|I]; [left; congruence|right; right; exact I].
  - destruct (set_nth n l v) as [r|] eqn:E1; [|discriminate]. injection E as <-.
    destruct I as [I|I]; [right; left; exact I|]. destruct (IH _ _ _ E1 I); [auto|right; right; assumption].
Qed.

Lemma mrefs_merge R (a b : smap ref) : mrefs R a -> mrefs R b -> mrefs R (sm_merge a b).
Proof.
  intros Ha Hb. rewrite sm_merge_of_list. apply mrefs_of_list; [exact Ha|].
  intros k x I. apply Hb. apply (in_map snd) in I. exact I.
Qed.

Lemma cstep_conf ord fuel R h held o h' held' : fresh_in R h -> closed R h -> Forall R held ->
  cstep ord fuel (h, held) o = Some (h', held') -> conf R h h' /\ Forall R held'.
Proof.
  intros F C Hh. rewrite Forall_forall in Hh.
  assert (forall i a, nth_error held i = Some a -> R a) as Hi by (intros i a E; apply Hh; eapply nth_error_In, E).
  assert (forall i (k : addr -> option (heap * list addr)) res,
    match nth_error held i with Some a => k a | None => None end = Some res -> exists a, R a /\ k a = Some res) as OBJ.
  { intros i k res E. destruct (nth_error held i) as [a|] eqn:Ei; [|discriminate]. exists a. split; [eapply Hi, Ei|exact E]. }
  assert (forall (r : option heap) (res : heap * list addr), match r with Some h2 => Some (h2, held) | None => None end = Some res -> exists h2, r = Some h2 /\ res = (h2, held)) as UPD.
  { intros [h2|] res E; [|discriminate]. injection E as <-. eauto. }
  assert (Forall R held) as Hf by (apply Forall_forall; exact Hh).
  unfold cstep. destruct o; intros E.
  - destruct (cell_refs c) eqn:Ec; [|discriminate]. simpl in E. injection E as <- <-.
    split; [apply conf_alloc; [exact F|exact C|rewrite Ec; intros x []]|].
    apply Forall_app. split; [exact Hf|]. constructor; [apply F; lia|constructor].
  - apply OBJ in E as (a & Ra & E). destruct (get_dict h a) as [[nid kvs]|] eqn:G; [|discriminate]. apply get_dict_spec in G.
    pose proof (closed_refs _ _ _ _ C Ra G) as Rk. simpl in Rk.
    destruct (sm_get kvs k) as [[x|]|] eqn:Gk; injection E as <- <-; (split; [apply conf_refl, C|]); try exact Hf.
    apply Forall_app. split; [exact Hf|]. constructor; [apply Rk; eapply in_sm_get, Gk|constructor].
  - apply OBJ in E as (x & Ra & E). destruct (get_arr h x) as [rs|] eqn:G; [|discriminate]. apply get_arr_spec in G.
    pose proof (closed_refs _ _ _ _ C Ra G) as Rk. simpl in Rk.
    destruct (nth_error rs i) as [[y|]|] eqn:Gk; injection E as <- <-; (split; [apply conf_refl, C|]); try exact Hf.
    apply Forall_app. split; [exact Hf|]. constructor; [apply Rk; eapply nth_error_In, Gk|constructor].
  - apply OBJ in E as (a & Ra & E). apply OBJ in E as (x & Rx & E). apply UPD in E as (h2 & E & Er). injection Er as -> ->.
    split; [|exact Hf]. unfold h_set in E. destruct (get_dict h a) as [[nid kvs]|] eqn:G; [|discriminate]. apply get_dict_spec in G.
    injection E as <-. apply conf_write; [exact C|exact Ra|]. apply mrefs_add; [apply (closed_refs _ _ _ _ C Ra G)|congruence].
  - apply OBJ in E as (a & Ra & E). apply UPD in E as (h2 & E & Er). injection Er as -> ->.
    split; [|exact Hf]. unfold h_remove in E. destruct (get_dict h a) as [[nid kvs]|] eqn:G; [|discriminate]. apply get_dict_spec in G.
    injection E as <-. apply conf_write; [exact C|exact Ra|].
    eapply (mrefs_sub R kvs); [apply sm_delete_sub|apply (closed_refs _ _ _ _ C Ra G)].
  - apply OBJ in E as (a & Ra & E). apply UPD in E as (h2 & E & Er). injection Er as -> ->.
    split; [|exact Hf]. unfold h_remove_ic in E. destruct (get_dict h a) as [[nid kvs]|] eqn:G; [|discriminate]. apply get_dict_spec in G.
    injection E as <-. apply conf_write; [exact C|exact Ra|].
    eapply (mrefs_sub R kvs); [apply (remove_ic_incl ceq (S (length kvs)) kvs k)|apply (closed_refs _ _ _ _ C Ra G)].
  - apply OBJ in E as (a & Ra & E). apply OBJ in E as (x & Rx & E). apply UPD in E as (h2 & E & Er). injection Er as -> ->.
    split; [|exact Hf]. unfold h_add in E. destruct keys as [|k ks]; [injection E as <-; apply conf_refl, C|].
    destruct (h_add_path isnull h a (Some x) k ks) as [[h2' e]|] eqn:E1; [|discriminate]. injection E as ->.
    eapply h_add_path_conf; [exact F|exact C|exact Ra| |exact E1]. congruence.
  - apply OBJ in E as (a & Ra & E). apply OBJ in E as (b & Rb & E). apply UPD in E as (h2 & E & Er). injection Er as -> ->.
    split; [|exact Hf]. unfold h_update in E. destruct (get_dict h a) as [[nid kvs]|] eqn:G; [|discriminate]. apply get_dict_spec in G.
    destruct (get_dict h b) as [[nid2 kvs2]|] eqn:G2; injection E as <-; [|apply conf_refl, C]. apply get_dict_spec in G2.
    apply conf_write; [exact C|exact Ra|]. apply mrefs_merge; [apply (closed_refs _ _ _ _ C Ra G)|apply (closed_refs _ _ _ _ C Rb G2)].
  - apply OBJ in E as (a & Ra & E). apply OBJ in E as (b & Rb & E). apply UPD in E as (h2 & E & Er). injection Er as -> ->.
    split; [|exact Hf]. unfold h_update_default in E. destruct (get_dict h a) as [[nid kvs]|] eqn:G; [|discriminate]. apply get_dict_spec in G.
    destruct (get_dict h b) as [[nid2 kvs2]|] eqn:G2; injection E as <-; [|apply conf_refl, C]. apply get_dict_spec in G2.
    apply conf_write; [exact C|exact Ra|]. apply mrefs_merge; [apply (closed_refs _ _ _ _ C Rb G2)|apply (closed_refs _ _ _ _ C Ra G)].
  - apply OBJ in E as (a' & Ra & E). apply OBJ in E as (x & Rx & E). apply UPD in E as (h2 & E & Er). injection Er as -> ->.
    split; [|exact Hf]. unfold h_append in E. destruct (get_arr h a') as [rs|] eqn:G; [|discriminate]. apply get_arr_spec in G.
    injection E as <-. apply conf_write; [exact C|exact Ra|]. simpl. intros y I. apply in_app_iff in I as [I|[I|[]]]; [|congruence].
    apply (closed_refs _ _ _ _ C Ra G). exact I.
  - apply OBJ in E as (a' & Ra & E). apply OBJ in E as (x & Rx & E). apply UPD in E as (h2 & E & Er). injection Er as -> ->.
    split; [|exact Hf]. unfold h_set_at in E. destruct (get_arr h a') as [rs|] eqn:G; [|discriminate]. apply get_arr_spec in G.
    destruct (set_nth i rs (Some x)) as [rs'|] eqn:S; [|discriminate]. injection E as <-.
    apply conf_write; [exact C|exact Ra|]. simpl. intros y I. destruct (set_nth_in _ _ _ _ _ S I) as [I'|I']; [congruence|].
    apply (closed_refs _ _ _ _ C Ra G). exact I'.
  - apply OBJ in E as (a & Ra & E). unfold h_copy in E.
    destruct (nth_error h a) as [c|] eqn:G; [|discriminate]. pose proof (closed_refs _ _ _ _ C Ra G) as Rk.
    destruct c; try discriminate; cbv zeta in E; [|match type of E with match (if ?t then _ else _) with _ => _ end = _ => destruct t; [discriminate|] end];
      simpl in E; injection E as <- <-; simpl in Rk.
    + split; [apply conf_alloc; assumption|]. apply Forall_app. split; [exact Hf|]. constructor; [apply F; lia|constructor].
    + split; [|apply Forall_app; split; [exact Hf|]; constructor; [apply F; lia|constructor]].
      apply conf_alloc; [exact F|exact C|]. simpl. apply mrefs_of_list; [intros y []|].
      intros k y I. apply filter_In in I as [I _]. apply Rk. apply (in_map snd) in I. exact I.
  - apply OBJ in E as (a & Ra & E). destruct (deep_copy ord fuel h a) as [h2 [b|]| |] eqn:D; try discriminate; injection E as <- <-;
      destruct (deep_copy_adds _ _ _ _ _ _ D) as [A B]; (split; [apply adds_conf; assumption|]); [|exact Hf].
    apply Forall_app. split; [exact Hf|]. constructor; [|constructor]. apply F. apply (B b eq_refl).
Qed.

Lemma crun_conf ord fuel R ops : forall h held h' held', fresh_in R h -> closed R h -> Forall R held ->
  crun ord fuel (h, held) ops = Some (h', held') -> conf R h h' /\ Forall R held'.
Proof.
  induction ops as [|o ops IH]; intros h held h' held' F C Hh E; cbn [crun] in E.
  - injection E as <- <-. split; [apply conf_refl, C|exact Hh].
  - destruct (cstep ord fuel (h, held) o) as [[h1 held1]|] eqn:E1; [|discriminate].
    destruct (cstep_conf _ _ _ _ _ _ _ _ F C Hh E1) as [C1 H1].
    destruct (IH _ _ _ _ (fresh_conf _ _ _ F C1) (proj1 (proj2 C1)) H1 E) as [C2 H2].
    split; [eapply conf_trans; eassumption|exact H2].
Qed.

(** ** Reading depends only on what is reachable *)

Lemma map_opt_ext {A C} (f g : A -> option C) l : (forall x, In x l -> f x = g x) -> map_opt f l = map_opt g l.
Proof.
  induction l as [|x l IH]; intros H; [reflexivity|]. cbn [map_opt]. rewrite (H x (or_introl eq_refl)), IH; [reflexivity|].
  intros y I. apply H. right; exact I.
Qed.

Lemma read_frame (Q : addr -> Prop) h h' : closed Q h -> (forall x, Q x -> nth_error h' x = nth_error h x) ->
  forall n a, Q a -> read n h' a = read n h a.
Proof.
  intros C A. induction n as [|n IH]; intros a Qa; [reflexivity|]. cbn [read]. cbv zeta. rewrite (A a Qa).
  destruct (nth_error h a) as [c|] eqn:E; [|reflexivity].
  destruct c; try reflexivity; f_equal; apply map_opt_ext.
  - intros [x|] I; [|reflexivity]. apply IH. eapply C; [exact Qa|exact E|exact I].
  - intros [k [x|]] I; [|reflexivity]. simpl. f_equal. apply IH. eapply C; [exact Qa|exact E|].
    simpl. apply (in_map snd) in I. exact I.
Qed.
