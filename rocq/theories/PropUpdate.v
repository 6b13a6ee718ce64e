(** C48: Update(dst, src) copies the fields that src has, and nothing else. *)
From Verif Require Import Base Strconv SpecFloat SortedMap SortedMapFacts Json SpecJson Printer Heap Gotypes Marshal SpecMarshal SpecEncode MarshalFacts MarshalEnc2 MarshalRefs MarshalFinal PropMarshal Access Unmarshal SpecUnmarshal UnmFacts UnmTotal UnmMono FloatWidth PropUnmarshal UnmFrame PropUnmarshal2 SpecRestore RestoreMem MarshalOrder TextScalars Restore PropRestore Update SpecUpdate StrconvFacts PropScalar FloatSyntax SpecFloatText QueryParseFacts JErrors.
Open Scope Z_scope.

Section C48.
Context (env : nat -> list (finfo * gty)) (locate : list (finfo * gty) -> bytes -> list nat).
Context (match_us match_eu : bytes -> bool) (to_bool : bytes -> bool)
  (parse_time : bytes -> option bytes) (time_json : bytes -> option (option bytes)) (std_ok : bytes -> bool).
Notation Update := (Update env locate match_us match_eu to_bool parse_time time_json std_ok).
Notation Unmarshal := (Unmarshal env locate match_us match_eu to_bool parse_time time_json std_ok).
Notation unm := (unm env locate match_us match_eu to_bool parse_time time_json std_ok).
Notation un_fields := (un_fields locate).
Notation set_field := (set_field locate).
Notation holds := (SpecRestore.holds env parse_time time_json []).
Notation restorable := (restorable locate).
Notation aligned := (aligned env locate parse_time time_json match_us match_eu to_bool).
Notation survives_text := (survives_text match_us match_eu to_bool).

Lemma NoDup_fst_inj {A C} (l : list (A * C)) k x y : NoDup (map fst l) -> In (k, x) l -> In (k, y) l -> x = y.
Proof using.
  induction l as [|[k' z] l IH]; intros N I J; [destruct I|]. inversion N as [|? ? N1 N2]; subst. destruct I as [I|I], J as [J|J].
  - congruence.
  - injection I as -> ->. destruct N1. apply (in_map fst) in J. exact J.
  - injection J as -> ->. destruct N1. apply (in_map fst) in I. exact I.
  - apply IH; assumption.
Qed.
Lemma nth_error_ext {A} (l l' : list A) : (forall n, nth_error l n = nth_error l' n) -> l = l'.
Proof using.
  revert l'. induction l as [|x l IH]; intros [|y l'] H; [reflexivity|specialize (H 0%nat); discriminate|specialize (H 0%nat); discriminate|].
  pose proof (H 0%nat) as E. cbn in E. injection E as ->. f_equal. apply IH. intros n. apply (H (S n)).
Qed.

Lemma arrives_encodes st omit f v x : arrives st v x -> forall own i j, ~ is_nil x -> encodes st omit f own i v j -> ref_ids j = [] ->
  exists own', encodes st omit f own' i x j.
Proof using.
  induction 1 as [x|a v x E Nt A IH|v x A IH]; intros own i j N En R.
  - exists own. exact En.
  - inversion En as [? ? ? Hn| | | | | | | | | | |? ? ? ? ? ? Hc| |? ? ? y ? Ey Ey'| | | | | |]; subst; [destruct Hn|destruct Hc|discriminate|].
    assert (y = v) by congruence. subst y. eapply IH; eassumption.
  - inversion En as [? ? ? Hn| | | | | | | | | | |? ? ? ? ? ? Hc| | |? ? ? ? Ey| | | | |]; subst; [destruct Hn|destruct Hc|]. eapply IH; eassumption.
Qed.

Lemma arrives_dropped st v x : arrives st v x -> is_nil x -> forall i, dropped st i v.
Proof using. induction 1 as [x|a v x E Nt A IH|v x A IH]; intros N i; [apply D_nil, N|eapply D_ptr; [exact E|apply IH, N]|apply D_iface, IH, N]. Qed.

Lemma arrives_fun st v x y : arrives st v x -> arrives st v y -> arrives st x y \/ arrives st y x.
Proof using.
  induction 1 as [x|a v x E Nt A IH|v x A IH]; intros B; [left; exact B|..].
  - inversion B as [|? v' ? E' N' B'|]; subst; [right; eapply ar_ptr; eassumption|]. assert (v' = v) by congruence. subst. apply IH, B'.
  - inversion B as [| |? ? B']; subst; [right; apply ar_iface; assumption|]. apply IH, B'.
Qed.
Lemma cell_end st x y c : cell_of x = Some c -> arrives st x y -> y = x.
Proof using. intros E A. inversion A; subst; [reflexivity|discriminate..]. Qed.
Lemma flat_cell x t : flat t -> holds x t -> is_nil x \/ exists c, cell_of x = Some c.
Proof using. destruct x as [| | | |[]|[]|[]| |[]| |[]|[]|[]|[]| | |]; destruct t; cbn; intros F H; try contradiction; eauto; try absurd_holds H. Qed.

(** One field. *)
Lemma flat_unm st f own i x j t : flat t -> restorable t -> holds x t -> ~ is_nil x -> (forced i = true -> survives_text x) -> encodes st true f own i x j ->
  exists c, cell_of x = Some c /\ forall n s b, unm (S n) s t b j = UOk (with_mem s (mwrite (u_mem s) b c)) None.
Proof using.
  intros F R H N Hf En. destruct x as [b0|k z|bit x|s0|[b0|]|o|l|l|mm|fs|p|p|p|p|p|p|]; destruct t; cbn [flat] in F; try contradiction F; try contradiction H; try (destruct l; contradiction H); try (destruct mm; contradiction H);
    try (destruct p; contradiction H); try (destruct o; contradiction H); try (absurd_holds H); try (destruct N; exact Logic.I); inversion En; subst; try contradiction; cbn zeta; cbn [cell_of]; eexists; (split; [reflexivity|]);
    intros n s b.
  - destruct (forced i); cbn [Unmarshal.unm indirect step_scalar step_bool step_string]; rewrite ?with_mem_id; [|reflexivity]. rewrite (Hf eq_refl). reflexivity.
  - destruct H as [-> Hk]. destruct (forced i).
    + cbn [Unmarshal.unm indirect step_scalar]. rewrite with_mem_id. rewrite int_from_text; [reflexivity|exact R|exact Hk|exact (Hf eq_refl)].
    + cbn [Unmarshal.unm indirect step_scalar step_int]. rewrite with_mem_id. pose proof (wrap_id k0 z) as W. destruct k0; cbn [SpecRestore.restorable] in R; rewrite (W R Hk); reflexivity.
  - destruct H as [-> Hk]. assert (Sx : set_float bit0 x = x) by (destruct (Z.eq_dec bit0 32) as [e|e]; [subst bit0; apply set_float_single, (Hk eq_refl)|apply set_float64, e]). destruct (forced i).
    + cbn [Unmarshal.unm indirect step_scalar]. rewrite with_mem_id. rewrite float_from_text; [rewrite Sx; reflexivity|exact (Hf eq_refl)].
    + cbn [Unmarshal.unm indirect step_scalar step_float]. rewrite with_mem_id, Sx. reflexivity.
  - cbn [Unmarshal.unm indirect step_scalar step_string]. rewrite with_mem_id. reflexivity.
  - cbn [Unmarshal.unm indirect step_scalar step_string]. rewrite with_mem_id. reflexivity.
  - cbn [Unmarshal.unm indirect step_scalar step_string]. destruct o as [s1|]; [|reflexivity]. destruct H as [Ns P]. destruct s1; [congruence|]. rewrite P. reflexivity.
Qed.

(** All fields. *)
Definition puts (t : gty) (j : json) (c : vcell) : Prop := forall n s b, unm (S n) s t b j = UOk (with_mem s (mwrite (u_mem s) b c)) None.
Lemma flat_loop ts vars n kvs : NoDup vars -> NoDup (map fst kvs) -> forall s,
  (forall b, In b vars -> (b < length (u_mem s))%nat) ->
  (forall k j, In (k, j) kvs -> locate ts k = [] \/ exists i g t b c, locate ts k = [i] /\ nth_error ts i = Some (g, t) /\ fi_deprecated_by g = None /\ nth_error vars i = Some b /\ puts t j c) ->
  (forall k j k' j' i, In (k, j) kvs -> In (k', j') kvs -> locate ts k = [i] -> locate ts k' = [i] -> k = k') ->
  exists s', un_fields (unm (S n)) s ts vars kvs [] = UOk s' None /\ u_sess s' = u_sess s /\ length (u_mem s') = length (u_mem s) /\
    (forall k j i g t b c, In (k, j) kvs -> locate ts k = [i] -> nth_error ts i = Some (g, t) -> nth_error vars i = Some b -> puts t j c -> nth_error (u_mem s') b = Some c) /\
    (forall y, (forall k j i, In (k, j) kvs -> locate ts k = [i] -> nth_error vars i <> Some y) -> nth_error (u_mem s') y = nth_error (u_mem s) y).
Proof using.
  intros Nv. induction kvs as [|[k j] kvs IH]; intros Nk s Lv H D.
  - exists s. cbn. repeat split; auto. intros k j i g t b c [].
  - cbn [map fst] in Nk. inversion Nk as [|? ? Nk1 Nk2]; subst. cbn [Unmarshal.un_fields].
    assert (Step : exists s1 r, set_field (unm (S n)) (S (S (length ts))) s [] ts vars k j = UOk s1 r /\ snd r = None /\ u_sess s1 = u_sess s /\ length (u_mem s1) = length (u_mem s) /\
       (forall i g t b c, locate ts k = [i] -> nth_error ts i = Some (g, t) -> nth_error vars i = Some b -> puts t j c -> nth_error (u_mem s1) b = Some c) /\
       (forall y, (forall i, locate ts k = [i] -> nth_error vars i <> Some y) -> nth_error (u_mem s1) y = nth_error (u_mem s) y)).
    { destruct (H k j (or_introl eq_refl)) as [L|(i & g & t & b & c & L & Et & Dp & Eb & P)].
      - exists s, ([k], None). cbn [Unmarshal.set_field in_strings]. rewrite L. repeat split; auto. intros; discriminate.
      - exists (with_mem s (mwrite (u_mem s) b c)), ([k], None). cbn [Unmarshal.set_field in_strings]. rewrite L, Et, Eb, (P n s b). cbn [ubind]. rewrite Dp.
        assert (Lb : (b < length (u_mem s))%nat) by (apply Lv; eapply nth_error_In, Eb).
        split; [reflexivity|]. split; [reflexivity|]. split; [reflexivity|]. cbn [u_mem with_mem]. split; [apply mwrite_length|]. split.
        + intros i' g' t' b' c' L' Et' Eb' P'. injection L' as <-. assert (b' = b) by congruence. subst b'. assert (t' = t) by congruence. subst t'.
          specialize (P n s b). specialize (P' n s b). rewrite P in P'. injection P' as P'. assert (X : nth_error (mwrite (u_mem s) b c) b = nth_error (mwrite (u_mem s) b c') b) by (rewrite P'; reflexivity).
          rewrite !mwrite_same in X by exact Lb. rewrite mwrite_same by exact Lb. exact X.
        + intros y Hy. apply mwrite_other. intros ->. apply (Hy i eq_refl). exact Eb. }
    destruct Step as (s1 & r & E & Er & Ss & Ls & W1 & F1). rewrite E. cbn [ubind]. rewrite Er.
    destruct (IH Nk2 s1) as (s2 & E2 & Ss2 & Ls2 & W2 & F2).
    { intros b I. rewrite Ls. apply Lv, I. }
    { intros k' j' I. apply (H k' j'). right. exact I. }
    { intros k1 j1 k2 j2 i I1 I2. apply (D k1 j1 k2 j2 i); right; assumption. }
    exists s2. split; [exact E2|]. split; [congruence|]. split; [congruence|]. split.
    + intros k' j' i g t b c [I|I] L Et Eb P; [|eapply W2; eassumption]. injection I as <- <-.
      rewrite F2; [eapply W1; eassumption|]. intros k' j' i' I' L' Eb'.
      assert (i' = i) by (eapply (proj1 (NoDup_nth_error vars) Nv); [apply nth_error_Some; congruence|congruence]). subst i'.
      assert (k = k') by (eapply D; [left; reflexivity|right; exact I'|exact L|exact L']). subst k'. apply Nk1. apply (in_map fst) in I'. exact I'.
    + intros y Hy. rewrite F2; [apply F1|]; intros; eapply Hy; try eassumption; [left; reflexivity|right; eassumption].
Qed.

Lemma left_out pick st src fs : chooses pick ->
  graph st src -> no_trap st src -> acyclic st -> holds_pure_json src -> Forall holds_pure_json st ->
  arrives st src (GStruct fs) -> plain_source fs -> forall g v, In (g, v) fs -> ~ dropped st (Some g) v \/ ~ ~ dropped st (Some g) v.
Proof using env locate.
  intros HP G T Ac Pj Pjs Ar (Pf & Nf) g0 v0 I0.
  destruct (C31_terminates true pick st src G T) as (N1 & j & M).
  assert (Mj : marshals true st src j) by (exists pick, N1; split; [exact HP|apply M, Nat.le_refl]).
  destruct (C31_acyclic_no_references true st src j Ac Pj Pjs Mj) as [Ni Nr].
  apply C30_result_encodes_value in Mj as [(_ & D & _)|[_ [f En]]].
  { exfalso. apply C30_elements_dropped_iff_nil in D. clear - D Ar. remember (GStruct fs) as z eqn:Ez. induction Ar as [x|b v x E Nt A IH|v x A IH].
    - subst x. inversion D as [? X| |]; destruct X.
    - inversion D as [? X|? ? E' D'|]; subst; [destruct X|]. apply IH; congruence.
    - inversion D as [? X| |? D']; subst; [destruct X|]. apply IH; [reflexivity|exact D']. }
  destruct (arrives_encodes _ _ _ _ _ Ar _ _ _ (fun X => X) En Nr) as (own & En').
  inversion En' as [? ? ? Hn| | | | | | | | | |? ? ? nid ps kvs Hf Hps Hd Ho|? ? ? ? Hf| | | | | | | |]; subst; [destruct Hn| |discriminate].
  cbn [SpecMarshal.node_ids] in Ni. assert (Hnid : (0 <? nid) = false) by (destruct (0 <? nid); [discriminate|reflexivity]).
  assert (Ne : emitted_names fs = map (fun fv => fi_name (fst fv)) fs).
  { unfold emitted_names. f_equal. clear - Pf. induction fs as [|[g v] fs IH]; [reflexivity|]. cbn [filter fst]. rewrite (proj1 (Pf g v (or_introl eq_refl))). cbn [negb]. f_equal. apply IH. intros g' v' I. apply (Pf g' v'). right. exact I. }
  assert (Nps : NoDup (map fst ps)) by (eapply enc_fields_nodup; [exact Hps|rewrite Ne; exact Nf]).
  assert (Tg : forall k, tag_of fs k = None) by (apply plain_tags; intros g v I; apply (Pf g v I)).
  assert (Kin : forall k j, In (k, j) kvs <-> In (k, j) ps).
  { destruct Hd as [Kok Kget]. intros k j. rewrite <- (sm_get_in kvs k j Kok), Kget. split.
    - intros [[X _]|[_ L]]; [rewrite Tg in X; congruence|apply last_pair_some, L].
    - intros I. right. split; [intros (j' & X & _); rewrite Tg in X; congruence|apply last_pair_in; assumption]. }
  assert (Nk : NoDup (map fst kvs)) by (apply sm_ok_nodup, Hd).
  assert (Pair : forall g v, In (g, v) fs -> (In (fi_name g) (map fst ps) <-> ~ dropped st (Some g) v) /\ forall j, In (fi_name g, j) ps -> encodes st true f [] (Some g) v j).
  { intros g v I. destruct (Pf g v I) as (P1 & P3). destruct (enc_fields_pair _ _ _ _ _ g v Hps (eq_ind_r _ Nf Ne) I P1 P3) as [A B]. split; [rewrite A; tauto|exact B]. }
  destruct (Pair g0 v0 I0) as [P _]. destruct (in_dec (list_eq_dec Byte.byte_eq_dec) (fi_name g0) (map fst ps)) as [I|I]; [left|right]; tauto.
Qed.

(** The struct [fs] at the end of [src], and the destination: a struct with the
    fields [ts] at [vars].  Update returns nil; every field of the destination
    that a field of the source names (of those that are not left out, see C30)
    then has the value of that field; and all else in memory is as before: the
    fields that the source does not name or leaves out, other variables, and
    nothing is allocated. *)
Theorem C48_update pick st src fs m nm ts a vars : chooses pick ->
  graph st src -> no_trap st src -> acyclic st -> holds_pure_json src -> Forall holds_pure_json st ->
  arrives st src (GStruct fs) -> plain_source fs -> aligned st fs ts ->
  nth_error m a = Some (VStruct vars) -> length vars = length ts -> NoDup vars -> (forall b, In b vars -> (b < length m)%nat) ->
  exists N m', (forall n, (N <= n)%nat -> Update pick n m (TStruct nm ts) a st src = Some (TopOk m')) /\
    length m' = length m /\
    (forall g v x i b, In (g, v) fs -> ~ dropped st (Some g) v -> arrives st v x -> cell_of x <> None ->
       locate ts (fi_name g) = [i] -> nth_error vars i = Some b -> nth_error m' b = cell_of x) /\
    (forall y, (forall g v i, In (g, v) fs -> ~ dropped st (Some g) v -> locate ts (fi_name g) = [i] -> nth_error vars i <> Some y) ->
       nth_error m' y = nth_error m y).
Proof using.
  intros HP G T Ac Pj Pjs Ar (Pf & Nf) (Al & Ald) Ea Lv Nv Lb.
  destruct (C31_terminates true pick st src G T) as (N1 & j & M).
  assert (Mj : marshals true st src j) by (exists pick, N1; split; [exact HP|apply M, Nat.le_refl]).
  destruct (C31_acyclic_no_references true st src j Ac Pj Pjs Mj) as [Ni Nr].
  apply C30_result_encodes_value in Mj as [(_ & D & _)|[_ [f En]]].
  { exfalso. apply C30_elements_dropped_iff_nil in D. clear - D Ar. remember (GStruct fs) as z eqn:Ez. induction Ar as [x|b v x E Nt A IH|v x A IH].
    - subst x. inversion D as [? X| |]; destruct X.
    - inversion D as [? X|? ? E' D'|]; subst; [destruct X|]. apply IH; congruence.
    - inversion D as [? X| |? D']; subst; [destruct X|]. apply IH; [reflexivity|exact D']. }
  destruct (arrives_encodes _ _ _ _ _ Ar _ _ _ (fun X => X) En Nr) as (own & En').
  inversion En' as [? ? ? Hn| | | | | | | | | |? ? ? nid ps kvs Hf Hps Hd Ho|? ? ? ? Hf| | | | | | | |]; subst; [destruct Hn| |discriminate].
  cbn [SpecMarshal.node_ids] in Ni. assert (Hnid : (0 <? nid) = false) by (destruct (0 <? nid); [discriminate|reflexivity]).
  assert (Ne : emitted_names fs = map (fun fv => fi_name (fst fv)) fs).
  { unfold emitted_names. f_equal. clear - Pf. induction fs as [|[g v] fs IH]; [reflexivity|]. cbn [filter fst]. rewrite (proj1 (Pf g v (or_introl eq_refl))). cbn [negb]. f_equal. apply IH. intros g' v' I. apply (Pf g' v'). right. exact I. }
  assert (Nps : NoDup (map fst ps)) by (eapply enc_fields_nodup; [exact Hps|rewrite Ne; exact Nf]).
  assert (Tg : forall k, tag_of fs k = None) by (apply plain_tags; intros g v I; apply (Pf g v I)).
  assert (Kin : forall k j, In (k, j) kvs <-> In (k, j) ps).
  { destruct Hd as [Kok Kget]. intros k j. rewrite <- (sm_get_in kvs k j Kok), Kget. split.
    - intros [[X _]|[_ L]]; [rewrite Tg in X; congruence|apply last_pair_some, L].
    - intros I. right. split; [intros (j' & X & _); rewrite Tg in X; congruence|apply last_pair_in; assumption]. }
  assert (Nk : NoDup (map fst kvs)) by (apply sm_ok_nodup, Hd).
  assert (Pair : forall g v, In (g, v) fs -> (In (fi_name g) (map fst ps) <-> ~ dropped st (Some g) v) /\ forall j, In (fi_name g, j) ps -> encodes st true f [] (Some g) v j).
  { intros g v I. destruct (Pf g v I) as (P1 & P3). destruct (enc_fields_pair _ _ _ _ _ g v Hps (eq_ind_r _ Nf Ne) I P1 P3) as [A B]. split; [rewrite A; tauto|exact B]. }
  assert (From : forall k j, In (k, j) ps -> exists g v, In (g, v) fs /\ fi_name g = k).
  { intros k j I. apply (in_map fst) in I. cbn in I. apply (enc_fields_keys _ _ _ _ _ Hps) in I. rewrite Ne in I. apply in_map_iff in I as ([g v] & E & I). eauto. }
  assert (Refs : forall k j, In (k, j) kvs -> ref_ids j = []).
  { intros k j I. cbn [ref_ids] in Nr. clear - Nr I. induction kvs as [|[k' j'] kvs IH]; [destruct I|]. cbn in Nr. apply app_eq_nil in Nr as [N1 N2]. destruct I as [E|I]; [injection E as <- <-; exact N1|apply IH; assumption]. }
  assert (Put : forall g v i, In (g, v) fs -> ~ dropped st (Some g) v -> locate ts (fi_name g) = [i] ->
      exists j g' t x c, In (fi_name g, j) kvs /\ nth_error ts i = Some (g', t) /\ fi_deprecated_by g' = None /\ arrives st v x /\ cell_of x = Some c /\ puts t j c).
  { intros g v i I Nd L. destruct (Pair g v I) as [P1 P2]. apply P1 in Nd as Nd'. apply in_map_iff in Nd' as ([k j] & Ek & Ij). cbn in Ek. subst k.
    destruct (Al g v I) as (x & Ax & [X|[X|(i' & g' & t & L' & Et & Dp & Fl & R & Hx & Tx)]]); [destruct Nd; eapply arrives_dropped; eassumption|congruence|].
    assert (i' = i) by congruence. subst i'. apply Kin in Ij as Ij'. destruct (flat_cell x t Fl Hx) as [X|(c & Ec)]; [destruct Nd; eapply arrives_dropped; eassumption|].
    assert (Nx : ~ is_nil x) by (destruct x as [| | | |[]|[]| | | | | | | | | | |]; try discriminate; exact (fun X => X)).
    destruct (arrives_encodes _ _ _ _ _ Ax _ _ _ Nx (P2 j Ij) (Refs _ _ Ij')) as (own' & Ex).
    destruct (flat_unm st f own' (Some g) x j t Fl R Hx Nx Tx Ex) as (c' & Ec' & P).
    exists j, g', t, x, c'. repeat split; try assumption. }
  assert (Run : forall n, exists s', un_fields (unm (S n)) {| u_mem := m; u_sess := [] |} ts vars kvs [] = UOk s' None /\ length (u_mem s') = length m /\
    (forall k j i g t b c, In (k, j) kvs -> locate ts k = [i] -> nth_error ts i = Some (g, t) -> nth_error vars i = Some b -> puts t j c -> nth_error (u_mem s') b = Some c) /\
    (forall y, (forall k j i, In (k, j) kvs -> locate ts k = [i] -> nth_error vars i <> Some y) -> nth_error (u_mem s') y = nth_error m y)).
  { intros n. destruct (flat_loop ts vars n kvs Nv Nk {| u_mem := m; u_sess := [] |}) as (s' & E & _ & L & W & F).
    - exact Lb.
    - intros k j I. apply Kin in I as Ip. destruct (From k j Ip) as (g & v & Ig & <-). destruct (Pair g v Ig) as [P1 _].
      assert (Nd : ~ dropped st (Some g) v) by (apply P1; apply (in_map fst) in Ip; exact Ip).
      destruct (Al g v Ig) as (x & Ax & [X|[X|(i & g' & t & L' & Et & Dp & Fl & R & Hx & Tx)]]); [destruct Nd; eapply arrives_dropped; eassumption|left; exact X|right].
      destruct (Put g v i Ig Nd L') as (j' & g2 & t2 & x2 & c & Ij & Et2 & Dp2 & _ & _ & P).
      assert (j' = j) by (eapply (NoDup_fst_inj kvs); eassumption). subst j'. assert (Lt : (i < length vars)%nat) by (rewrite Lv; apply nth_error_Some; congruence).
      destruct (nth_error vars i) as [b|] eqn:Eb; [|apply nth_error_Some in Lt; congruence]. exists i, g2, t2, b, c. repeat split; assumption.
    - intros k j k' j' i I I' L L'. apply Kin in I, I'. destruct (From k j I) as (g & v & Ig & <-). destruct (From k' j' I') as (g' & v' & Ig' & <-). eapply Ald; eassumption.
    - exists s'. repeat split; assumption. }
  destruct (Run 0%nat) as (s0 & E0 & L0 & W0 & F0).
  exists (2 + N1)%nat, (u_mem s0).
  assert (Same : forall n, exists s', un_fields (unm (S n)) {| u_mem := m; u_sess := [] |} ts vars kvs [] = UOk s' None /\ u_mem s' = u_mem s0).
  { intros n. destruct (Run n) as (s1 & E1 & L1 & W1 & F1). exists s1. split; [exact E1|]. apply nth_error_ext. intros y.
    assert (Dec : (exists k j i, In (k, j) kvs /\ locate ts k = [i] /\ nth_error vars i = Some y) \/ (forall k j i, In (k, j) kvs -> locate ts k = [i] -> nth_error vars i <> Some y)).
    { clear. induction kvs as [|[k j] kvs IH]; [right; intros ? ? ? []|]. destruct IH as [(k' & j' & i & I & R)|IH]; [left; exists k', j', i; split; [right; exact I|exact R]|].
      destruct (locate ts k) as [|i [|i2 l]] eqn:L; [right|destruct (nth_error vars i) as [b|] eqn:Eb; [destruct (Nat.eq_dec b y) as [->|Nb]|]|right].
      - intros k' j' i [E|I]; [injection E as <- <-; congruence|eauto].
      - left. exists k, j, i. split; [left; reflexivity|split; assumption].
      - right. intros k' j' i' [E|I]; [injection E as <- <-; intros L'; assert (i' = i) by congruence; subst; congruence|eauto].
      - right. intros k' j' i' [E|I]; [injection E as <- <-; intros L'; assert (i' = i) by congruence; subst; congruence|eauto].
      - intros k' j' i' [E|I]; [injection E as <- <-; congruence|eauto]. }
    destruct Dec as [(k & j & i & I & L & Ey)|Dec]; [|rewrite F1, F0 by exact Dec; reflexivity].
    apply Kin in I as Ip. destruct (From k j Ip) as (g & v & Ig & <-). destruct (Pair g v Ig) as [P1 _].
    assert (Nd : ~ dropped st (Some g) v) by (apply P1; apply (in_map fst) in Ip; exact Ip).
    destruct (Put g v i Ig Nd L) as (j' & g2 & t2 & x2 & c & Ij & Et2 & Dp2 & _ & _ & P).
    rewrite (W1 _ _ _ _ _ _ _ Ij L Et2 Ey P), (W0 _ _ _ _ _ _ _ Ij L Et2 Ey P). reflexivity. }
  split; [|split; [exact L0|split]].
  - intros [|n'] Ln; [lia|]. unfold Update.Update, Marshal. rewrite M by lia. unfold Unmarshal.Unmarshal. cbn [receiver resolve]. cbn [Unmarshal.unm]. rewrite Hnid. cbn [ubind indirect].
    unfold fields_of. cbn [u_mem with_mem u_sess]. rewrite Ea. destruct n' as [|n]; [lia|]. destruct (Same n) as (s1 & E1 & Em). change (with_mem {| u_mem := m; u_sess := [] |} m) with {| u_mem := m; u_sess := [] |}. rewrite E1, Em. reflexivity.
  - intros g v x i b I Nd Ax Cx L Eb. destruct (Put g v i I Nd L) as (j & g' & t & x' & c & Ij & Et & Dp & Ax' & Ec & P).
    rewrite (W0 _ _ _ _ _ _ _ Ij L Et Eb P). destruct (cell_of x) as [c1|] eqn:Ec1; [|congruence].
    destruct (arrives_fun _ _ _ _ Ax Ax') as [A|A]; [apply (cell_end _ _ _ _ Ec1) in A|apply (cell_end _ _ _ _ Ec) in A]; congruence.
  - intros y Hy. apply F0. intros k j i I L. apply Kin in I as Ip. destruct (From k j Ip) as (g & v & Ig & <-). destruct (Pair g v Ig) as [P1 _].
    apply (Hy g v i Ig); [apply P1; apply (in_map fst) in Ip; exact Ip|exact L].
Qed.

(** Doing it once more changes nothing. *)
Theorem C48_again pick pick' st src fs m nm ts a vars : chooses pick -> chooses pick' ->
  graph st src -> no_trap st src -> acyclic st -> holds_pure_json src -> Forall holds_pure_json st ->
  arrives st src (GStruct fs) -> plain_source fs -> aligned st fs ts ->
  nth_error m a = Some (VStruct vars) -> length vars = length ts -> NoDup vars -> ~ In a vars -> (forall b, In b vars -> (b < length m)%nat) ->
  exists N m', forall n, (N <= n)%nat ->
    Update pick n m (TStruct nm ts) a st src = Some (TopOk m') /\ Update pick' n m' (TStruct nm ts) a st src = Some (TopOk m').
Proof using.
  intros HP HP' G T Ac Pj Pjs Ar Pf Al Ea Lv Nv Na Lb.
  destruct (C48_update pick st src fs m nm ts a vars HP G T Ac Pj Pjs Ar Pf Al Ea Lv Nv Lb) as (N & m' & U & L & W & F).
  assert (Ea' : nth_error m' a = Some (VStruct vars)).
  { rewrite F; [exact Ea|]. intros g v i _ _ _ E. apply Na. eapply nth_error_In, E. }
  destruct (C48_update pick' st src fs m' nm ts a vars HP' G T Ac Pj Pjs Ar Pf Al Ea' Lv Nv) as (N' & m2 & U' & L' & W' & F'); [intros b I; rewrite L; apply Lb, I|].
  exists (N + N')%nat, m'. intros n Ln. split; [apply U; lia|]. rewrite U' by lia. do 2 f_equal. apply nth_error_ext. intros y.
  assert (Dec : (exists g v i, In (g, v) fs /\ ~ dropped st (Some g) v /\ locate ts (fi_name g) = [i] /\ nth_error vars i = Some y) \/ ~ (exists g v i, In (g, v) fs /\ ~ dropped st (Some g) v /\ locate ts (fi_name g) = [i] /\ nth_error vars i = Some y)).
  { assert (DD : forall g v, In (g, v) fs -> ~ dropped st (Some g) v \/ ~ ~ dropped st (Some g) v) by (eapply left_out; eassumption). clear - DD.
    induction fs as [|[g v] fs IH]; [right; intros (? & ? & ? & [] & _)|]. destruct IH as [(g' & v' & i & I & R)|IH]; [intros g' v' I; apply DD; right; exact I|left; exists g', v', i; split; [right; exact I|exact R]|]. destruct (DD g v (or_introl eq_refl)) as [D|D]; [|right; intros (g' & v' & i & [E|I] & R); [injection E as <- <-; tauto|apply IH; exists g', v', i; split; assumption]].
    destruct (locate ts (fi_name g)) as [|i [|i2 l]] eqn:Lo.
    - right. intros (g' & v' & i & [E|I] & R); [injection E as <- <-; destruct R as (_ & R & _); congruence|apply IH; exists g', v', i; split; assumption].
    - destruct (nth_error vars i) as [b|] eqn:Eb; [destruct (Nat.eq_dec b y) as [->|Nb]|].
      + left. exists g, v, i. split; [left; reflexivity|]. repeat split; assumption.
      + right. intros (g' & v' & i' & [E|I] & R); [injection E as <- <-; destruct R as (_ & R1 & R2); assert (i' = i) by congruence; subst; congruence|apply IH; exists g', v', i'; split; assumption].
      + right. intros (g' & v' & i' & [E|I] & R); [injection E as <- <-; destruct R as (_ & R1 & R2); assert (i' = i) by congruence; subst; congruence|apply IH; exists g', v', i'; split; assumption].
    - right. intros (g' & v' & i' & [E|I] & R); [injection E as <- <-; destruct R as (_ & R & _); congruence|apply IH; exists g', v', i'; split; assumption]. }
  destruct Dec as [(g & v & i & I & Nd & Lo & Ey)|Nw].
  - destruct Al as [Al _]. destruct (Al g v I) as (x & Ax & [X|[X|(i' & g' & t & L1 & Et & Dp & Fl & R & Hx & Tx)]]); [destruct Nd; eapply arrives_dropped; eassumption|congruence|].
    destruct (flat_cell x t Fl Hx) as [X|(c & Ec)]; [destruct Nd; eapply arrives_dropped; eassumption|].
    rewrite (W g v x i y I Nd Ax ltac:(congruence) Lo Ey). apply (W' g v x i y I Nd Ax ltac:(congruence) Lo Ey).
  - apply F'. intros g v i I Nd Lo Ey. apply Nw. exists g, v, i. auto.
Qed.

Lemma tag_named fs k d : tag_of fs k = Some d -> exists g v, In (g, v) fs /\ fi_ignore g = false /\ fi_name g = k.
Proof using.
  induction fs as [|[g v] fs IH]; [discriminate|]. cbn [tag_of]. destruct (tag_of fs k) as [x|].
  - intros [=->]. destruct (IH eq_refl) as (g' & v' & I & R). exists g', v'. split; [right; exact I|exact R].
  - destruct (fi_ignore g) eqn:Ig; [discriminate|]. cbn [negb andb]. destruct (bseq_spec (fi_name g) k) as [E|]; [|discriminate]. intros _. exists g, v. split; [left; reflexivity|auto].
Qed.

(** Whatever the types and tags: what is only reached through fields of the
    destination that no field of the source names (or names through
    deprecated-by tags of the destination) is not touched, also when Update
    fails. *)
Theorem C48_other_fields_keep pick st src fs n m nm ts a vars m' : chooses pick ->
  acyclic st -> holds_pure_json src -> Forall holds_pure_json st -> arrives st src (GStruct fs) ->
  (forall x c y, nth_error m x = Some c -> In y (mentions c) -> (y < length m)%nat) ->
  nth_error m a = Some (VStruct vars) ->
  Update pick n m (TStruct nm ts) a st src = Some (TopOk m') \/ (exists e, Update pick n m (TStruct nm ts) a st src = Some (TopErr m' e)) ->
  forall x, (x < length m)%nat ->
    (forall g v i b, In (g, v) fs -> fi_ignore g = false -> selects locate ts (fi_name g) i -> nth_error vars i = Some b -> ~ reaches m b x) ->
    nth_error m' x = nth_error m x.
Proof using.
  intros HP Ac Pj Pjs Ar Cl Ea U x Lx Nx. unfold Update.Update in U. destruct (Marshal pick n st (Some src)) as [j|] eqn:M; [|destruct U as [U|[e U]]; discriminate].
  assert (Mj : marshals true st src j) by (exists pick, n; split; assumption).
  destruct (C31_acyclic_no_references true st src j Ac Pj Pjs Mj) as [Ni Nr].
  apply C30_result_encodes_value in Mj as [(_ & D & _)|[_ [f En]]].
  { exfalso. apply C30_elements_dropped_iff_nil in D. clear - D Ar. remember (GStruct fs) as z eqn:Ez. induction Ar as [x|b v x E Nt A IH|v x A IH].
    - subst x. inversion D as [? X| |]; destruct X.
    - inversion D as [? X|? ? E' D'|]; subst; [destruct X|]. apply IH; congruence.
    - inversion D as [? X| |? D']; subst; [destruct X|]. apply IH; [reflexivity|exact D']. }
  destruct (arrives_encodes _ _ _ _ _ Ar _ _ _ (fun X => X) En Nr) as (own & En').
  inversion En' as [? ? ? Hn| | | | | | | | | |? ? ? nid ps kvs Hf Hps Hd Ho|? ? ? ? Hf| | | | | | | |]; subst; [destruct Hn| |discriminate].
  cbn [SpecMarshal.node_ids] in Ni. assert (Hnid : nid <= 0) by (destruct (Z.ltb_spec 0 nid); [discriminate|lia]).
  apply (C40_other_fields_keep env locate match_us match_eu to_bool parse_time time_json std_ok n m nm ts a vars nid kvs m' Cl Ea Hnid); [|exact Lx|].
  { destruct U as [U|[e U]]; injection U as U; [left; exact U|right; exists e; exact U]. }
  intros k j i b I Se Eb. assert (exists g v, In (g, v) fs /\ fi_ignore g = false /\ fi_name g = k) as (g & v & Ig & Gi & <-); [|eapply Nx; eassumption].
  destruct Hd as [Kok Kget]. apply sm_get_in in I; [|exact Kok]. apply Kget in I as [[Tk _]|[_ L]].
  - destruct (tag_of fs k) as [d|] eqn:Td; [|congruence]. eapply tag_named, Td.
  - apply last_pair_some in L. apply (in_map fst) in L. cbn in L. apply (enc_fields_keys _ _ _ _ _ Hps) in L. unfold emitted_names in L.
    apply in_map_iff in L as ([g v] & E & I). apply filter_In in I as [I G]. exists g, v. cbn in *. destruct (fi_ignore g); [discriminate|]. auto.
Qed.
End C48.

(** ** Examples *)

(** type T struct { N int64; S string; B bool }, and a patch
    struct { N *int64; S string `json:"s,omitempty"`; X bool }{N: &5, X: true} *)
Definition up_env (n : nat) : list (finfo * gty) :=
  match n with 0%nat => [(plain (nm "n"), TInt (Signed 64)); (plain (nm "s"), TString); (plain (nm "b"), TBool)] | _ => [] end.
Definition up_t : gty := TStruct 0 (up_env 0).
Definition up_omit : finfo := {| fi_name := nm "s"; fi_ignore := false; fi_omit_empty := true; fi_omit_zero := false; fi_omit_false := false; fi_force_string := false; fi_deprecated_by := None |}.
Definition up_store : store := [GInt (Signed 64) 5].
Definition up_src : list (finfo * gval) := [(plain (nm "n"), GPtr (Some 0%nat)); (up_omit, GString []); (plain (nm "x"), GBool true)].
Definition up_mem : mem := [VInt 1; VString (nm "old"); VBool false; VStruct [0; 1; 2]%nat].
Notation up := (Update up_env by_name (fun _ => false) (fun _ => false) (fun _ => true) (fun _ => None) (fun _ => None) (fun _ => true)).

Example C48_example : exists N m', (forall n, (N <= n)%nat -> up hd n up_mem up_t 3%nat up_store (GStruct up_src) = Some (TopOk m')) /\
  nth_error m' 0 = Some (VInt 5) /\ nth_error m' 1 = Some (VString (nm "old")) /\ nth_error m' 2 = Some (VBool false).
Proof.
  destruct (C48_update up_env by_name (fun _ => false) (fun _ => false) (fun _ => true) (fun _ => None) (fun _ => None) (fun _ => true)
    hd up_store (GStruct up_src) up_src up_mem 0 (up_env 0) 3%nat [0; 1; 2]%nat) as (N & m' & U & L & W & F).
  - apply hd_chooses.
  - intros x a [->|[<-|[]]] I; [|destruct I]. cbn in I. destruct I as [<-|[]]. cbn. lia.
  - intros x fs k [->|[<-|[]]] If (b & _ & (c & Tc & _) & _); [|destruct If]. destruct If as [<-|[]]. revert Tc. unfold up_src. cbn [tag_of plain up_omit fi_name fi_ignore fi_deprecated_by fst snd andb negb]. repeat match goal with |- context [bseq ?x ?y] => destruct (bseq x y) end; discriminate.
  - intros a P. assert (Y : forall a b, path up_store a b -> False); [|eapply Y, P]. clear. intros a b P.
    induction P as [x b E I|b x c _ IH _ _]; [destruct a as [|[|]]; try discriminate; injection E as <-; destruct I|exact IH].
  - intros j [].
  - constructor; [intros j []|constructor].
  - constructor.
  - split; [intros g v [E|[E|[E|[]]]]; injection E as <- <-; repeat split|repeat constructor; cbn; intuition discriminate].
  - split.
    + intros g v [E|[E|[E|[]]]]; injection E as <- <-.
      * exists (GInt (Signed 64) 5). split; [eapply ar_ptr; [reflexivity|discriminate|constructor]|]. right; right. exists 0%nat, (plain (nm "n")), (TInt (Signed 64)). repeat split. right; right; right. reflexivity.
      * exists (GString []). split; [constructor|]. right; right. exists 1%nat, (plain (nm "s")), TString. repeat split.
      * exists (GBool true). split; [constructor|]. right; left. reflexivity.
    + intros g v g' v' i [E|[E|[E|[]]]] [E'|[E'|[E'|[]]]]; injection E as <- <-; injection E' as <- <-; vm_compute; congruence.
  - reflexivity.
  - reflexivity.
  - repeat constructor; cbn; intuition discriminate.
  - intros b I. cbn in I. cbn. lia.
  - exists N, m'. split; [exact U|]. split; [|split].
    + rewrite (W (plain (nm "n")) (GPtr (Some 0%nat)) (GInt (Signed 64) 5) 0%nat 0%nat); try reflexivity; try discriminate.
      * left. reflexivity.
      * intros D. inversion D; subst; try (match goal with H : is_nil _ |- _ => destruct H | H : is_empty _ |- _ => destruct H end; fail).
        match goal with H : nth_error up_store _ = Some _ |- _ => injection H as <- end.
        match goal with H : dropped _ _ (GInt _ _) |- _ => inversion H; subst end;
          try (match goal with H : is_nil _ |- _ => destruct H | H : is_empty _ |- _ => destruct H end; fail).
        match goal with H : has _ _ |- _ => destruct H as (? & X & X') end. injection X as <-. discriminate X'.
      * eapply ar_ptr; [reflexivity|discriminate|constructor].
    + rewrite F; [reflexivity|]. intros g v i [E|[E|[E|[]]]] D Lo; injection E as <- <-; vm_compute in Lo; try discriminate; injection Lo as <-; try discriminate.
      intros _. apply D. apply D_empty; [exists up_omit; split; reflexivity|exact Logic.I].
    + rewrite F; [reflexivity|]. intros g v i [E|[E|[E|[]]]] D Lo; injection E as <- <-; vm_compute in Lo; try discriminate; injection Lo as <-; discriminate.
Qed.

(** ** What Update does not do *)

(** A number does not update a number: Update(&i, 5) returns nil and sets i to
    0, as Unmarshal of a bare number ignores it (the same for booleans and
    floats). *)
Theorem C48_bare_number_refuted : exists m m', nth_error m 0 = Some (VInt 7) /\
  (forall n, (1 <= n)%nat -> up hd n m (TInt (Signed 64)) 0%nat [] (GInt (Signed 64) 5) = Some (TopOk m')) /\ nth_error m' 0 = Some (VInt 0).
Proof. exists [VInt 7], [VInt 0]. split; [reflexivity|]. split; [|reflexivity]. intros [|n] L; [lia|reflexivity]. Qed.

(** A map is merged, not replaced: keys that the source does not have stay. *)
Theorem C48_map_merges_refuted : exists m m', nth_error m 1 = Some (VMapData [(nm "a", 0%nat)]) /\ nth_error m 2 = Some (VMap (Some 1%nat)) /\
  (forall n, (5 <= n)%nat -> up hd n m (TMap (TInt (Signed 64))) 2%nat [] (GMap (Some [(nm "b", GInt (Signed 64) 5)])) = Some (TopOk m')) /\
  exists x y, nth_error m' 1 = Some (VMapData [(nm "a", x); (nm "b", y)]) /\ nth_error m' x = Some (VInt 1) /\ nth_error m' y = Some (VInt 5).
Proof.
  eexists [VInt 1; VMapData [(nm "a", 0%nat)]; VMap (Some 1%nat)], _. split; [reflexivity|]. split; [reflexivity|]. split.
  - intros n L. do 5 (destruct n as [|n]; [lia|]). vm_compute. reflexivity.
  - eexists _, _. repeat split; reflexivity.
Qed.

Print Assumptions C48_update.
Print Assumptions C48_again.
Print Assumptions C48_other_fields_keep.
