(** Marshal terminates on every finite graph. *)
From Coq Require Import Sorting.Permutation.
From Verif Require Import Base Strconv SortedMap SortedMapFacts Json SpecJson Printer Heap Gotypes Marshal SpecMarshal HeapFacts2 MarshalFacts DepFacts.

Fixpoint gdepth (v : gval) : nat :=
  match v with
  | GSlice (Some l) | GArray l => S (list_max (map gdepth l))
  | GMap (Some m) => S (list_max (map (fun kv => gdepth (snd kv)) m))
  | GStruct fs => S (S (length fs + list_max (map (fun fv => gdepth (snd fv)) fs)))
  | GIface (Some x) => S (gdepth x)
  | _ => O
  end.

Lemma list_max_in l x : In x l -> (x <= list_max l)%nat.
Proof. intros I. pose proof (proj1 (list_max_le l (list_max l)) (Nat.le_refl _)) as F. rewrite Forall_forall in F. apply F, I. Qed.

Section Total.
Context (st : store) (omit : bool) (D : nat).

Definition okv (v : gval) : Prop :=
  (forall a, In a (pointers v) -> (a < length st)%nat) /\ (forall fs k, In fs (structs v) -> ~ trapped (tag_of fs) k).

Context (Hst : Forall okv st) (HD : forall x, In x st -> (gdepth x <= D)%nat).

Definition in_trace (s : session) (a : addr) : bool := existsb (fun e => Nat.eqb (te_addr e) a) (s_trace s).
Definition free (s : session) : nat := length (filter (fun a => negb (in_trace s a)) (seq 0 (length st))).

Lemma in_trace_in s a : in_trace s a = true <-> In a (map te_addr (s_trace s)).
Proof using.
  unfold in_trace. rewrite existsb_exists, in_map_iff. split.
  - intros (e & I & E). apply Nat.eqb_eq in E. eauto.
  - intros (e & E & I). exists e. split; [exact I|]. apply Nat.eqb_eq, E.
Qed.

Lemma filter_le {A} (f g : A -> bool) l : (forall x, f x = true -> g x = true) -> (length (filter f l) <= length (filter g l))%nat.
Proof using.
  intros H. induction l as [|x l IH]; [simpl; lia|]. simpl. specialize (H x). destruct (f x), (g x); simpl; try lia; specialize (H eq_refl); discriminate.
Qed.

Lemma free_le s s' : incl (map te_addr (s_trace s)) (map te_addr (s_trace s')) -> (free s' <= free s)%nat.
Proof using.
  intros I. apply filter_le. intros x H. apply negb_true_iff. apply negb_true_iff in H.
  destruct (in_trace s x) eqn:E; [|reflexivity]. apply in_trace_in in E. apply I in E. apply in_trace_in in E. congruence.
Qed.

Lemma filter_lt {A} (f g : A -> bool) l a : In a l -> f a = false -> g a = true -> (forall x, f x = true -> g x = true) ->
  (length (filter f l) < length (filter g l))%nat.
Proof using.
  intros I F G H. induction l as [|x l IH]; [destruct I|]. simpl. destruct I as [->|I].
  - rewrite F, G. simpl. pose proof (filter_le f g l H). lia.
  - specialize (IH I). specialize (H x). destruct (f x), (g x); simpl; try lia; specialize (H eq_refl); discriminate.
Qed.

Lemma ext_incl s s' : ext s s' -> incl (map te_addr (s_trace s)) (map te_addr (s_trace s')).
Proof using. intros (_ & t & S & -> & B & _). rewrite map_app, (bumped_addrs _ _ B). apply incl_appl, incl_refl. Qed.

Lemma okv_child v x : okv v -> incl (pointers x) (pointers v) -> incl (structs x) (structs v) -> okv x.
Proof using. intros [A C] I1 I2. split; [intros a I; apply A, I1, I|intros fs k I; apply C, I2, I]. Qed.

Definition total_at (mv : session -> gval -> option finfo -> option (session * option mj)) (B : nat) (v : gval) : Prop :=
  forall s i, counts_ok s -> (free s <= B)%nat -> exists s' r, mv s v i = Some (s', r) /\ counts_ok s' /\ (free s' <= B)%nat.

Lemma m_elems_total mv B l : Forall (total_at mv B) l -> forall s, counts_ok s -> (free s <= B)%nat -> exists s' r, m_elems mv s l = Some (s', r).
Proof using.
  induction 1 as [|v l Hv _ IH]; intros s C F; cbn [m_elems]; [eauto|].
  destruct (Hv s None C F) as (s1 & r & -> & C1 & F1). destruct (IH s1 C1 F1) as (s2 & rs & ->). eauto.
Qed.
Lemma m_members_total mv B (l : list (bytes * gval)) : Forall (fun kv => total_at mv B (snd kv)) l -> forall s, counts_ok s -> (free s <= B)%nat -> exists s' r, m_members mv s l = Some (s', r).
Proof using.
  induction 1 as [|[k v] l Hv _ IH]; intros s C F; cbn [m_members]; [eauto|].
  destruct (Hv s None C F) as (s1 & r & E & C1 & F1). simpl in E. rewrite E. destruct (IH s1 C1 F1) as (s2 & rs & ->). eauto.
Qed.
Lemma m_fields_total mv B (l : list (finfo * gval)) : Forall (fun kv => total_at mv B (snd kv)) l -> forall s d, counts_ok s -> (free s <= B)%nat ->
  exists s' r d', m_fields mv s l d = Some (s', r, d').
Proof using.
  induction 1 as [|[i v] l Hv _ IH]; intros s d C F; cbn [m_fields]; [eauto|].
  destruct (fi_ignore i); [apply IH; assumption|]. destruct (fi_deprecated_by i); [apply IH; assumption|].
  destruct (Hv s (Some i) C F) as (s1 & r & E & C1 & F1). simpl in E. rewrite E. destruct (IH s1 d C1 F1) as (s2 & rs & d2 & ->). eauto.
Qed.

Lemma m_fields_dep_length mv fs : forall s d s' ps d', m_fields mv s fs d = Some (s', ps, d') -> (length d' <= length d + length fs)%nat.
Proof using.
  induction fs as [|[i v] fs IH]; intros s d s' ps d' E; cbn [m_fields] in E; [injection E as <- <- <-; simpl; lia|].
  destruct (fi_ignore i); [apply IH in E; simpl; lia|]. destruct (fi_deprecated_by i) as [x|].
  - apply IH in E. assert (length (sm_add d (fi_name i) x) <= S (length d))%nat; [|simpl; lia].
    clear. induction d as [|[k v] d IH]; simpl; [lia|]. destruct (bcmp (fi_name i) k); simpl; lia.
  - destruct (mv s v (Some i)) as [[s1 r]|]; [|discriminate]. destruct (m_fields mv s1 fs d) as [[[s2 rs2] d2]|] eqn:E2; [|discriminate].
    injection E as <- <- <-. apply IH in E2. simpl. lia.
Qed.

Lemma mval_total n : forall s v i, okv v -> counts_ok s -> (free s * (D + 2) + gdepth v < n)%nat ->
  exists s' r, mval st omit n s v i = Some (s', r).
Proof using Hst HD.
  induction n as [|n IH]; intros s v i OK C L; [lia|]. cbn [mval].
  assert (forall x, okv x -> (gdepth x < gdepth v)%nat -> total_at (mval st omit n) (free s) x) as CH.
  { intros x Ox Lx s1 i1 C1 F1. destruct (IH s1 x i1 Ox C1) as (s2 & r & E).
    { pose proof (Nat.mul_le_mono_r _ _ (D + 2) F1). lia. }
    exists s2, r. pose proof (mval_ext _ _ _ _ _ _ _ _ C1 E) as X. split; [exact E|]. split; [eapply ext_counts; eassumption|].
    pose proof (free_le s1 s2 (ext_incl _ _ X)). lia. }
  assert (forall l, (v = GSlice (Some l) \/ v = GArray l) -> exists s' r, match l with
          | [] => if flag i fi_omit_empty && omit then Some (s, None) else Some (s, finish_container i (MArr []))
          | _ => match m_elems (mval st omit n) s l with
                 | Some (s1, rs) => Some (s1, finish_container i (MArr rs))
                 | None => None
                 end
          end = Some (s', r)) as SL.
  { intros l Hv. destruct l as [|x l]; [destruct (flag i fi_omit_empty && omit); eauto|].
    destruct (m_elems_total (mval st omit n) (free s) (x :: l)) with (s := s) as (s1 & rs & ->); [|exact C|lia|eauto].
    apply Forall_forall. intros y Iy. apply CH.
    - apply (okv_child v); [exact OK| |]; destruct Hv as [-> | ->]; cbn [pointers structs]; intros z Iz; apply in_flat_map; eauto.
    - assert (gdepth v = S (list_max (map gdepth (x :: l)))) as -> by (destruct Hv as [-> | ->]; reflexivity).
      pose proof (list_max_in _ _ (in_map gdepth _ _ Iy)). lia. }
  destruct v as [b|k z|bit f|x|t|t|[l|]|l|[m|]|fs|[a|]|[x|]|[j|]|[j|]|j|j|]; eauto.
  - destruct m as [|x m]; [destruct (flag i fi_omit_empty && omit); eauto|].
    destruct (m_members_total (mval st omit n) (free s) (x :: m)) with (s := s) as (s1 & ps & ->); [|exact C|lia|eauto].
    apply Forall_forall. intros y Iy. apply CH.
    + eapply okv_child; [exact OK| |]; cbn [pointers structs]; intros z Iz; apply in_flat_map; eauto.
    + pose proof (list_max_in _ _ (in_map (fun kv : bytes * gval => gdepth (snd kv)) _ _ Iy)) as LM. cbv beta in LM. cbn [gdepth]. apply Nat.lt_succ_r. exact LM.
  - destruct (m_fields_total (mval st omit n) (free s) fs) with (s := s) (d := @nil (bytes * bytes)) as (s1 & ps & dep & E1); [|exact C|lia|].
    { apply Forall_forall. intros y Iy. apply CH.
      + eapply okv_child; [exact OK| |]; cbn [pointers structs]; intros z Iz; [|right]; apply in_flat_map; eauto.
      + pose proof (list_max_in _ _ (in_map (fun kv : finfo * gval => gdepth (snd kv)) _ _ Iy)) as LM. cbv beta in LM. cbn [gdepth]. clear - LM. apply Nat.lt_succ_r. eapply Nat.le_trans; [exact LM|]. apply Nat.le_trans with (length fs + list_max (map (fun fv : finfo * gval => gdepth (snd fv)) fs))%nat; [apply Nat.le_add_l|apply Nat.le_succ_diag_r]. }
    rewrite E1. pose proof (m_fields_tags _ _ _ _ _ _ _ E1) as T. pose proof (m_fields_sorted _ _ _ _ _ _ _ sm_ok_nil E1) as O.
    pose proof (m_fields_dep_length _ _ _ _ _ _ _ E1) as Ld. simpl in Ld.
    destruct (dep_pairs_total dep ps O) with (todo := dep) as [r R].
    { intros k TR. destruct OK as [_ OK2]. apply (OK2 fs k); [left; reflexivity|]. eapply trapped_ext; [|exact TR].
      intros k'. rewrite T. simpl. destruct (tag_of fs k'); reflexivity. }
    { apply incl_refl. }
    assert (S (length dep) <= n)%nat as Ln by (cbn [gdepth] in L; lia).
    rewrite (dep_pairs_mono _ n _ _ Ln _ _ R).
    destruct (ps ++ r); [destruct (flag i fi_omit_empty && omit)|]; eauto.
  - destruct (tr_find None (s_trace s) a) as [t [id|]] eqn:F; [eauto|]. cbn.
    destruct OK as [OK1 _]. specialize (OK1 a (or_introl eq_refl)).
    destruct (nth_error st a) as [x|] eqn:N; [|apply nth_error_None in N; lia].
    pose proof (nth_error_In _ _ N) as Ix.
    destruct (tr_find_spec _ _ _ _ _ F) as (B & _ & _ & NF). destruct NF as [NF _]. specialize (NF eq_refl) as [_ NF].
    match goal with |- context [mval st omit n ?s1 x i] => set (s1' := s1) end.
    destruct (IH s1' x i) as (s2 & r & ->); [| | |eauto].
    + rewrite Forall_forall in Hst. apply Hst, Ix.
    + eapply counts_push; eassumption.
    + assert (free s1' < free s)%nat as FL.
      { apply filter_lt with a.
        - apply in_seq. lia.
        - apply negb_false_iff. apply in_trace_in. subst s1'. simpl. rewrite map_app. apply in_or_app. right. left. reflexivity.
        - apply negb_true_iff. destruct (in_trace s a) eqn:Et; [apply in_trace_in in Et; contradiction|reflexivity].
        - intros y Hy. apply negb_true_iff. apply negb_true_iff in Hy. destruct (in_trace s y) eqn:Et; [|reflexivity].
          apply in_trace_in in Et. rewrite <- Hy. symmetry. apply in_trace_in. subst s1'. simpl. rewrite map_app, (bumped_addrs _ _ B).
          apply in_or_app. left. exact Et. }
      pose proof (HD x Ix). simpl in L. nia.
  - apply (IH s x i); [|exact C|simpl in L; lia]. eapply okv_child; [exact OK| |]; cbn [pointers structs]; apply incl_refl.
Qed.
End Total.

(** Enough fuel for a graph. *)
Definition enough (st : store) (v : gval) : nat := S (length st * (list_max (map gdepth st) + 2) + gdepth v).

Lemma marshal_total st omit v n : Forall (okv st) st -> okv st v -> (enough st v <= n)%nat ->
  exists s r, mval st omit n new_session v None = Some (s, r).
Proof.
  intros H1 H2 L. apply (mval_total st omit (list_max (map gdepth st))); [exact H1| |exact H2|constructor|].
  - intros x I. apply list_max_in. apply in_map, I.
  - assert (free st new_session <= length st)%nat as F.
    { unfold free. rewrite <- (seq_length (length st) 0) at 2. generalize (seq 0 (length st)). intros l.
      induction l as [|y l IH]; [simpl; lia|]. cbn [filter]. destruct (negb (in_trace new_session y)); cbn [length]; lia. }
    unfold enough in L. pose proof (Nat.mul_le_mono_r _ _ (list_max (map gdepth st) + 2) F). lia.
Qed.
