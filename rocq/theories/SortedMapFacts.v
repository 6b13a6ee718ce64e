(** Facts about the sorted map: it is a finite map with sorted keys. *)
From Verif Require Import Base SortedMap.
From Coq Require Import Sorting.Sorted.

Lemma keys_sorted_strong ks : keys_sorted ks <-> StronglySorted blt ks.
Proof.
  induction ks as [|k ks IH]; simpl; split; intros H.
  - constructor.
  - exact I.
  - destruct H as [H1 H2]. constructor; [apply IH; exact H2|].
    apply IH in H2. destruct ks as [|k' ks']; [constructor|].
    inversion H2 as [|? ? _ F]; subst. constructor; [exact H1|].
    eapply Forall_impl; [|exact F]. intros x Hx. simpl in Hx. exact (blt_trans _ _ _ H1 Hx).
  - inversion H as [|? ? H1 H2]; subst. split; [|apply IH; exact H1].
    destruct ks; [exact I|]. inversion H2; assumption.
Qed.

Section Facts.
Context {V : Type}.
Implicit Types (m a b : smap V) (k : bytes) (v : V).

Lemma sm_ok_strong m : sm_ok m <-> StronglySorted blt (sm_keys m).
Proof. apply keys_sorted_strong. Qed.

Lemma sm_ok_cons k v m : sm_ok ((k, v) :: m) <-> sm_ok m /\ Forall (fun kv => blt k (fst kv)) m.
Proof.
  rewrite !sm_ok_strong. simpl. split.
  - intros H. inversion H as [|? ? H1 H2]; subst. split; [exact H1|].
    unfold sm_keys in H2. rewrite Forall_map in H2. exact H2.
  - intros [H1 H2]. constructor; [exact H1|]. unfold sm_keys. rewrite Forall_map. exact H2.
Qed.

Lemma sm_ok_nil : sm_ok (@nil (bytes * V)).
Proof. exact I. Qed.

Lemma sm_get_lt_none k m : Forall (fun kv => blt k (fst kv)) m -> sm_get m k = None.
Proof.
  induction 1 as [|[k' v'] m H _ IH]; simpl; [reflexivity|].
  destruct (bseq_spec k k') as [->|_]; [exfalso; exact (blt_irrefl _ H)|exact IH].
Qed.

Lemma sm_get_add m k v k' : sm_get (sm_add m k v) k' = if bseq k' k then Some v else sm_get m k'.
Proof.
  induction m as [|[k0 v0] m IH]; simpl; [reflexivity|].
  destruct (bcmp k k0) eqn:E; simpl.
  - apply bcmp_eq in E; subst. destruct (bseq k' k0); reflexivity.
  - reflexivity.
  - rewrite IH. destruct (bseq_spec k' k0) as [->|N]; [|reflexivity].
    destruct (bseq_spec k0 k) as [->|_]; [|reflexivity].
    rewrite bcmp_refl in E. discriminate.
Qed.

Lemma sm_add_keys_lt m k v k0 : blt k0 k -> Forall (fun kv => blt k0 (fst kv)) m ->
  Forall (fun kv => blt k0 (fst kv)) (sm_add m k v).
Proof.
  intros H. induction 1 as [|[k1 v1] m H1 HF IH]; simpl; [repeat constructor; exact H|].
  destruct (bcmp k k1); repeat constructor; try assumption.
Qed.

Lemma sm_add_ok m k v : sm_ok m -> sm_ok (sm_add m k v).
Proof.
  induction m as [|[k0 v0] m IH]; simpl; intros H.
  - apply sm_ok_cons. split; [exact I|constructor].
  - destruct (proj1 (sm_ok_cons _ _ _) H) as [H1 H2].
    destruct (bcmp k k0) eqn:E.
    + apply bcmp_eq in E; subst. apply sm_ok_cons. auto.
    + apply sm_ok_cons. split; [exact H|]. constructor; [exact E|].
      eapply Forall_impl; [|exact H2]. intros x Hx. exact (blt_trans _ _ _ E Hx).
    + apply sm_ok_cons. split; [auto|]. apply sm_add_keys_lt; [|exact H2]. apply bcmp_gt. exact E.
Qed.

Lemma sm_get_delete m k k' : sm_ok m ->
  sm_get (fst (sm_delete m k)) k' = if bseq k' k then None else sm_get m k'.
Proof.
  induction m as [|[k0 v0] m IH]; simpl; intros H.
  - destruct (bseq k' k); reflexivity.
  - apply sm_ok_cons in H as [H1 H2].
    destruct (bseq_spec k k0) as [->|N]; simpl.
    + destruct (bseq_spec k' k0) as [Ek|Ek]; [|reflexivity]. rewrite Ek; apply sm_get_lt_none. exact H2.
    + destruct (sm_delete m k) as [r ok] eqn:E. simpl in *.
      rewrite IH by exact H1. destruct (bseq_spec k' k0) as [Ek|Ek]; [|reflexivity].
      rewrite Ek; destruct (bseq_spec k0 k); [congruence|reflexivity].
Qed.

Lemma sm_delete_sub m k : incl (fst (sm_delete m k)) m.
Proof.
  induction m as [|[k0 v0] m IH]; simpl; [apply incl_refl|].
  destruct (bseq k k0); simpl; [apply incl_tl, incl_refl|].
  destruct (sm_delete m k) as [r ok]. simpl in *.
  intros x [<-|Hx]; [left; reflexivity|right; auto].
Qed.

Lemma sm_delete_ok m k : sm_ok m -> sm_ok (fst (sm_delete m k)).
Proof.
  induction m as [|[k0 v0] m IH]; simpl; intros H; [exact I|].
  apply sm_ok_cons in H as [H1 H2].
  destruct (bseq k k0); simpl; [exact H1|].
  pose proof (sm_delete_sub m k) as HS.
  destruct (sm_delete m k) as [r ok]. simpl in *.
  apply sm_ok_cons. split; [auto|].
  rewrite Forall_forall in *. auto.
Qed.

Lemma sm_delete_found m k : snd (sm_delete m k) = sm_mem m k.
Proof.
  unfold sm_mem. induction m as [|[k0 v0] m IH]; simpl; [reflexivity|].
  destruct (bseq k k0); simpl; [reflexivity|].
  destruct (sm_delete m k) as [r ok]. simpl in *. exact IH.
Qed.

Lemma sm_get_in m k v : sm_ok m -> sm_get m k = Some v <-> In (k, v) m.
Proof.
  induction m as [|[k0 v0] m IH]; simpl; intros H; [split; [discriminate|tauto]|].
  apply sm_ok_cons in H as [H1 H2]. destruct (bseq_spec k k0) as [->|N].
  - split.
    + intros [= ->]. left; reflexivity.
    + intros [[= ->]|Hin]; [reflexivity|]. exfalso.
      rewrite Forall_forall in H2. exact (blt_irrefl _ (H2 _ Hin)).
  - rewrite (IH H1). split; [auto|]. intros [[= -> ->]|Hin]; [congruence|exact Hin].
Qed.

Lemma sm_get_some_in m k v : sm_get m k = Some v -> In (k, v) m.
Proof.
  induction m as [|[k0 v0] m IH]; simpl; [discriminate|].
  destruct (bseq_spec k k0) as [->|N]; [intros [= ->]; auto|auto].
Qed.

Lemma sm_mem_in m k : sm_mem m k = true <-> In k (sm_keys m).
Proof.
  unfold sm_mem. induction m as [|[k0 v0] m IH]; simpl; [split; [discriminate|tauto]|].
  destruct (bseq_spec k k0) as [->|N]; [tauto|].
  rewrite IH. split; [auto|]. intros [->|H]; [congruence|exact H].
Qed.

(** Two sorted maps with the same lookups are equal. *)
Lemma sm_ext a b : sm_ok a -> sm_ok b -> (forall k, sm_get a k = sm_get b k) -> a = b.
Proof.
  revert b; induction a as [|[k v] a IH]; intros [|[k' v'] b] Ha Hb E.
  - reflexivity.
  - specialize (E k'). simpl in E. rewrite bseq_refl in E. discriminate.
  - specialize (E k). simpl in E. rewrite bseq_refl in E. discriminate.
  - apply sm_ok_cons in Ha as [Ha Fa]. apply sm_ok_cons in Hb as [Hb Fb].
    assert (k = k') as ->.
    { destruct (blt_total k k') as [L|[->|L]]; [|reflexivity|]; exfalso.
      - pose proof (E k) as Ek. simpl in Ek. rewrite bseq_refl in Ek.
        destruct (bseq_spec k k') as [->|_]; [exact (blt_irrefl _ L)|].
        rewrite sm_get_lt_none in Ek; [discriminate|].
        eapply Forall_impl; [|exact Fb]. intros x Hx. exact (blt_trans _ _ _ L Hx).
      - pose proof (E k') as Ek. simpl in Ek. rewrite bseq_refl in Ek.
        destruct (bseq_spec k' k) as [->|_]; [exact (blt_irrefl _ L)|].
        rewrite sm_get_lt_none in Ek; [discriminate|].
        eapply Forall_impl; [|exact Fa]. intros x Hx. exact (blt_trans _ _ _ L Hx). }
    pose proof (E k') as Ek. simpl in Ek. rewrite bseq_refl in Ek. injection Ek as ->.
    f_equal. apply IH; try assumption. intros k.
    destruct (bseq_spec k k') as [->|N].
    + rewrite !sm_get_lt_none by assumption. reflexivity.
    + specialize (E k). simpl in E. destruct (bseq_spec k k'); [congruence|exact E].
Qed.

(** Adding in front of everything else keeps the list. *)
Lemma sm_add_last m k v : Forall (fun kv => blt (fst kv) k) m -> sm_add m k v = m ++ [(k, v)].
Proof.
  induction 1 as [|[k0 v0] m H _ IH]; simpl; [reflexivity|]. simpl in H.
  unfold blt in H. rewrite bcmp_antisym, H. simpl. rewrite IH. reflexivity.
Qed.

Lemma sm_ok_app a b : sm_ok (a ++ b) -> sm_ok a /\ sm_ok b
  /\ Forall (fun x => Forall (fun y => blt (fst x) (fst y)) b) a.
Proof.
  induction a as [|[k v] a IH]; simpl; intros H; [repeat split; [exact H|constructor]|].
  apply sm_ok_cons in H as [H1 H2]. apply Forall_app in H2 as [H2 H3].
  destruct (IH H1) as (A & Bk & C). repeat split; try assumption.
  - apply sm_ok_cons; auto.
  - constructor; assumption.
Qed.

(** Rebuilding a sorted map by adding its entries in order. *)
Definition sm_of_list (l : list (bytes * V)) (m : smap V) : smap V :=
  fold_left (fun m '(k, v) => sm_add m k v) l m.

Lemma sm_of_list_sorted l : forall m, sm_ok (m ++ l) -> sm_of_list l m = m ++ l.
Proof.
  induction l as [|[k v] l IH]; intros m H; simpl; [rewrite app_nil_r; reflexivity|].
  rewrite sm_add_last.
  - rewrite IH; rewrite <- app_assoc; [reflexivity|exact H].
  - destruct (sm_ok_app _ _ H) as (_ & _ & F).
    eapply Forall_impl; [|exact F]. intros x Hx. inversion Hx; assumption.
Qed.

Lemma sm_of_list_ok l : forall m, sm_ok m -> sm_ok (sm_of_list l m).
Proof.
  induction l as [|[k v] l IH]; intros m H; simpl; [exact H|]. apply IH, sm_add_ok, H.
Qed.

(** The last binding of k in a list. *)
Fixpoint last_binding (l : list (bytes * V)) (k : bytes) : option V :=
  match l with
  | [] => None
  | (k', v) :: l' => match last_binding l' k with
                     | Some w => Some w
                     | None => if bseq k k' then Some v else None
                     end
  end.

Lemma sm_of_list_get l : forall m k,
  sm_get (sm_of_list l m) k = match last_binding l k with Some v => Some v | None => sm_get m k end.
Proof.
  induction l as [|[k0 v0] l IH]; intros m k; simpl; [reflexivity|].
  rewrite IH, sm_get_add. destruct (last_binding l k); [reflexivity|].
  destruct (bseq k k0); reflexivity.
Qed.

Lemma sm_merge_of_list a b : sm_merge a b = sm_of_list b a.
Proof. reflexivity. Qed.

Lemma last_binding_sorted m k : sm_ok m -> last_binding m k = sm_get m k.
Proof.
  induction m as [|[k0 v0] m IH]; simpl; intros H; [reflexivity|].
  apply sm_ok_cons in H as [H1 H2]. rewrite (IH H1).
  destruct (bseq_spec k k0) as [->|N].
  - rewrite sm_get_lt_none by exact H2. reflexivity.
  - destruct (sm_get m k); reflexivity.
Qed.

Lemma sm_merge_get a b k : sm_ok b ->
  sm_get (sm_merge a b) k = match sm_get b k with Some v => Some v | None => sm_get a k end.
Proof. intros H. rewrite sm_merge_of_list, sm_of_list_get, last_binding_sorted by exact H. reflexivity. Qed.

Lemma sm_merge_ok a b : sm_ok a -> sm_ok (sm_merge a b).
Proof. intros H. apply (sm_of_list_ok b). exact H. Qed.

Lemma sm_filter_ok f m : sm_ok m -> sm_ok (filter f m).
Proof.
  induction m as [|[k v] m IH]; simpl; intros H; [exact I|].
  apply sm_ok_cons in H as [H1 H2]. destruct (f (k, v)); [|auto].
  apply sm_ok_cons. split; [auto|]. rewrite Forall_forall in *.
  intros x Hx. apply filter_In in Hx as [Hx _]. auto.
Qed.

Lemma sm_get_filter (p : bytes -> bool) m k :
  sm_get (filter (fun kv => p (fst kv)) m) k = if p k then sm_get m k else None.
Proof.
  induction m as [|[k0 v0] m IH]; simpl; [destruct (p k); reflexivity|].
  destruct (p k0) eqn:E; simpl.
  - rewrite IH. destruct (bseq_spec k k0) as [->|N]; [rewrite E; reflexivity|reflexivity].
  - rewrite IH. destruct (bseq_spec k k0) as [->|N]; [rewrite E; reflexivity|reflexivity].
Qed.

Lemma sm_ok_nodup m : sm_ok m -> NoDup (sm_keys m).
Proof.
  induction m as [|[k v] m IH]; simpl; intros H; [constructor|].
  apply sm_ok_cons in H as [H1 H2]. constructor; [|auto].
  intros Hin. unfold sm_keys in Hin. apply in_map_iff in Hin as ([k' v'] & E & Hin). simpl in E; subst.
  rewrite Forall_forall in H2. exact (blt_irrefl _ (H2 _ Hin)).
Qed.

End Facts.
