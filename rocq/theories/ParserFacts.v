(** Facts about the parser model: fuel, offsets, canonical dicts. *)
From Verif Require Import Base Strconv SortedMap SortedMapFacts Utf8 Json Parser.

Definition suffix (r s : bytes) : Prop := exists p, s = p ++ r.

Lemma suffix_refl s : suffix s s. Proof. exists []; reflexivity. Qed.
Lemma suffix_nil s : suffix [] s. Proof. exists s. rewrite app_nil_r. reflexivity. Qed.
Lemma suffix_cons c r s : suffix r s -> suffix r (c :: s).
Proof. intros [p ->]. exists (c :: p). reflexivity. Qed.
Lemma suffix_trans a b c : suffix a b -> suffix b c -> suffix a c.
Proof. intros [p ->] [q ->]. exists (q ++ p). rewrite app_assoc. reflexivity. Qed.
Lemma suffix_length r s : suffix r s -> (length r <= length s)%nat.
Proof. intros [p ->]. rewrite app_length. lia. Qed.
Lemma suffix_uncons c r s : suffix (c :: r) s -> suffix r s.
Proof. intros [p ->]. exists (p ++ [c]). rewrite <- app_assoc. reflexivity. Qed.
#[global] Hint Resolve suffix_refl suffix_nil suffix_cons : suff.

Lemma skip_empty_suffix s : suffix (skip_empty s) s.
Proof. induction s as [|c s IH]; simpl; [auto with suff|]. destruct (is_ws c); auto with suff. Qed.

Lemma skip_empty_length s : (length (skip_empty s) <= length s)%nat.
Proof. apply suffix_length, skip_empty_suffix. Qed.

Lemma skip_empty_head s c r : skip_empty s = c :: r -> is_ws c = false.
Proof.
  induction s as [|a s IH]; simpl; [discriminate|]. destruct (is_ws a) eqn:E; [exact IH|].
  intros [= <- <-]. exact E.
Qed.

Lemma bare_token_split s t r : bare_token s = (t, r) -> s = t ++ r /\ Forall (fun c => is_delim c = false) t
  /\ (match r with [] => True | c :: _ => is_delim c = true end).
Proof.
  revert t r; induction s as [|c s IH]; intros t r; simpl.
  - intros [= <- <-]. repeat split; constructor.
  - destruct (is_delim c) eqn:E.
    + intros [= <- <-]. repeat split; [constructor|exact E].
    + destruct (bare_token s) as [t' r']. intros [= <- <-].
      destruct (IH t' r' eq_refl) as (-> & F & D). repeat split; [constructor; assumption|exact D].
Qed.

(** Outcomes of the quoted-string scanner: it never panics, never runs out. *)
Lemma parse_quoted_suffix q : forall n s acc, (length s <= n)%nat ->
  match parse_quoted q acc s with
  | POk _ r | PErr _ r => suffix r s
  | PPanic _ | PFuel => False
  end.
Proof.
  induction n as [|n IH]; intros s acc Hn.
  - destruct s; [|simpl in Hn; lia]. simpl. auto with suff.
  - destruct s as [|c s]; simpl; [auto with suff|]. simpl in Hn.
    assert (forall k acc', (length k <= n)%nat -> suffix k s -> match parse_quoted q acc' k with
      | POk _ r | PErr _ r => suffix r (c :: s) | PPanic _ | PFuel => False end) as X.
    { intros k acc' Hk HS. specialize (IH k acc' Hk).
      destruct (parse_quoted q acc' k); try contradiction;
        apply suffix_cons; eapply suffix_trans; eassumption. }
    destruct (beq c "\"%byte).
    + destruct s as [|e s2]; [auto with suff|]. simpl in Hn.
      repeat match goal with
      | |- context [if beq e ?b then _ else _] => destruct (beq e b)
      end; try (apply X; [lia|auto with suff]).
      * destruct s2 as [|h1 [|h2 [|h3 [|h4 [|h5 s3]]]]]; try (auto 10 with suff; fail).
        destruct (hexstr2rune h1 h2 h3 h4); [|auto 10 with suff].
        apply X; [simpl in *; lia|auto 10 with suff].
      * destruct s2 as [|h1 [|h2 [|h5 s3]]]; try (auto 10 with suff; fail).
        destruct (hexstr2byte h1 h2); [|auto 10 with suff].
        apply X; [simpl in *; lia|auto 10 with suff].
    + destruct (beq c q); [auto with suff|]. apply X; [lia|auto with suff].
Qed.

Lemma parse_string_suffix c s :
  match parse_string (c :: s) with
  | POk (t, b) r => suffix r (c :: s) /\ (b = false -> c :: s = t ++ r) /\ (b = true -> suffix r s)
                    /\ (b = false -> is_delim c = false -> t <> [])
  | PErr _ r => suffix r (c :: s)
  | PPanic _ | PFuel => False
  end.
Proof.
  unfold parse_string. destruct (beq c """"%byte || beq c "'"%byte).
  - pose proof (parse_quoted_suffix c (length s) s [] (le_n _)) as H.
    destruct (parse_quoted c [] s); try contradiction; [|auto with suff].
    repeat split; try discriminate; auto with suff.
  - destruct (bare_token (c :: s)) as [t r] eqn:E.
    pose proof E as E'. apply bare_token_split in E as (E & _ & _).
    repeat split; try discriminate.
    + exists t. exact E.
    + intros _. exact E.
    + intros _ D ->. cbn [bare_token] in E'. rewrite D in E'. destruct (bare_token s). discriminate.
Qed.

Lemma parse_scalar_suffix c s :
  match parse_scalar (c :: s) with
  | POk _ r => exists p, p <> [] /\ c :: s = p ++ r
  | PErr _ r => suffix r (c :: s)
  | PPanic p => p = PIndexOutOfRange
  | PFuel => False
  end.
Proof.
  unfold parse_scalar. pose proof (parse_string_suffix c s) as H.
  destruct (parse_string (c :: s)) as [[t b] r|e r|p|]; try contradiction; [|exact H].
  destruct H as (H1 & H2 & H3 & H4). destruct b.
  - destruct t; (destruct (H3 eq_refl) as [p ->]; exists (c :: p); split; [discriminate|reflexivity]).
  - destruct t as [|a t]; [reflexivity|].
    destruct (bare_value (a :: t)); [|exact H1].
    exists (a :: t). split; [discriminate|]. apply H2; reflexivity.
Qed.

(** Strict suffix: at least one byte consumed. *)
Definition ssuffix (r s : bytes) : Prop := exists p, p <> [] /\ s = p ++ r.
Lemma ssuffix_length r s : ssuffix r s -> (length r < length s)%nat.
Proof. intros ([|c p] & H & ->); [congruence|]. rewrite app_length. simpl. lia. Qed.
Lemma ssuffix_suffix r s : ssuffix r s -> suffix r s.
Proof. intros (p & _ & E). exists p; exact E. Qed.
Lemma suffix_ssuffix c r s : suffix r s -> ssuffix r (c :: s).
Proof. intros [p ->]. exists (c :: p). split; [discriminate|reflexivity]. Qed.
Lemma ssuffix_trans_l a b c : ssuffix a b -> suffix b c -> ssuffix a c.
Proof.
  intros (p & H & ->) [q ->]. exists (q ++ p). split.
  - destruct q; [exact H|discriminate].
  - rewrite app_assoc. reflexivity.
Qed.

(** No fuel exhaustion and offsets within bounds, for the three functions. *)
Definition val_good (s : bytes) (r : pres (json * list Z)) : Prop :=
  match r with POk _ r => ssuffix r s | PErr _ r => suffix r s | PPanic _ => True | PFuel => False end.
Definition loop_good {A} (s : bytes) (r : pres A) : Prop :=
  match r with POk _ r => suffix r s | PErr _ r => suffix r s | PPanic _ => True | PFuel => False end.

Lemma parse_good n :
  (forall sess s, s <> [] -> (2 * length s <= n)%nat -> val_good s (parse_value n sess s))
  /\ (forall sess acc nid s, (2 * length s + 1 <= n)%nat -> loop_good s (dict_loop n sess acc nid s))
  /\ (forall sess acc s, (2 * length s + 1 <= n)%nat -> loop_good s (array_loop n sess acc s)).
Proof.
  induction n as [|n (IHv & IHd & IHa)]; [repeat split; intros|].
  { destruct s; [congruence|simpl in *; lia]. } { simpl in *; lia. } { simpl in *; lia. }
  split; [|split].
  - intros sess s Hne Hlen. destruct s as [|c s]; [congruence|]. cbn [parse_value].
    simpl in Hlen.
    destruct (beq c "["%byte); [|destruct (beq c "{"%byte)].
    + specialize (IHa sess [] s ltac:(lia)). unfold loop_good in IHa.
      destruct (array_loop n sess [] s) as [[l ss] r|e r|p|]; simpl; try contradiction; auto with suff.
      apply suffix_ssuffix. exact IHa.
    + specialize (IHd sess sm_empty 0%Z s ltac:(lia)). unfold loop_good in IHd.
      destruct (dict_loop n sess sm_empty 0 s) as [[[l nid] ss] r|e r|p|]; simpl; try contradiction; auto with suff.
      destruct (0 <? nid)%Z; [destruct (save_node ss nid)|]; simpl; try exact I;
        apply suffix_ssuffix; exact IHd.
    + pose proof (parse_scalar_suffix c s) as H.
      destruct (parse_scalar (c :: s)); simpl; try contradiction; auto.
  - intros sess acc nid s Hlen. cbn [dict_loop]. destruct s as [|c0 s0]; [simpl; auto with suff|].
    set (s := c0 :: s0) in *.
    pose proof (skip_empty_suffix s) as HS.
    destruct (skip_empty s) as [|c s1] eqn:E1; [simpl; auto with suff|].
    pose proof (suffix_length _ _ HS) as HL1. simpl in HL1.
    destruct (beq c "}"%byte); [simpl; eapply suffix_uncons; exact HS|].
    pose proof (parse_string_suffix c s1) as HP.
    destruct (parse_string (c :: s1)) as [[key b] s2|e r|p|]; simpl; try contradiction.
    2:{ eapply suffix_trans; eassumption. }
    destruct HP as (HP1 & _).
    assert (suffix s2 s) as HS2 by (eapply suffix_trans; eassumption).
    pose proof (skip_empty_suffix s2) as HS2'.
    destruct (skip_empty s2) as [|c3 s3]; [simpl; auto with suff|].
    assert (suffix (c3 :: s3) s) as HS3 by (eapply suffix_trans; eassumption).
    destruct (beq c3 ":"%byte); simpl; [|exact HS3].
    pose proof (skip_empty_suffix s3) as HS3'.
    destruct (skip_empty s3) as [|c4 s4]; [simpl; auto with suff|].
    assert (suffix (c4 :: s4) s) as HS4.
    { eapply suffix_trans; [exact HS3'|]. eapply suffix_uncons; exact HS3. }
    assert (2 * length (c4 :: s4) <= n)%nat as HL4.
    { pose proof (suffix_length _ _ HS3'). pose proof (suffix_length _ _ HS3). simpl in *. lia. }
    specialize (IHv sess (c4 :: s4) ltac:(discriminate) HL4).
    destruct (parse_value n sess (c4 :: s4)) as [[v ss] s5|e r|p|]; simpl in *; try contradiction; auto.
    2:{ eapply suffix_trans; eassumption. }
    assert (suffix s5 s) as HS5 by (eapply suffix_trans; [eapply ssuffix_suffix; eassumption|exact HS4]).
    pose proof (skip_empty_suffix s5) as HS5'.
    assert (forall acc' nid', loop_good s match skip_empty s5 with
              | [] => PErr ETruncated []
              | c6 :: s6 => if beq c6 ","%byte then dict_loop n ss acc' nid' s6
                            else if beq c6 "}"%byte then POk (acc', nid', ss) s6
                            else PErr EUnexpectedChar (c6 :: s6) end) as HC.
    { intros acc' nid'. destruct (skip_empty s5) as [|c6 s6]; [simpl; auto with suff|].
      assert (suffix (c6 :: s6) s) as HS6 by (eapply suffix_trans; eassumption).
      destruct (beq c6 ","%byte); [|destruct (beq c6 "}"%byte); simpl; [eapply suffix_uncons|]; exact HS6].
      assert (2 * length s6 + 1 <= n)%nat as HL6.
      { pose proof (suffix_length _ _ HS6). unfold s in *. simpl in *. lia. }
      specialize (IHd ss acc' nid' s6 HL6). unfold loop_good in *.
      destruct (dict_loop n ss acc' nid' s6); try contradiction; auto;
        (eapply suffix_trans; [exact IHd|]; eapply suffix_uncons; exact HS6). }
    destruct (bseq key jnid_key); [|apply HC].
    destruct v; try exact I. apply HC.
  - intros sess acc s Hlen. cbn [array_loop]. destruct s as [|c0 s0]; [simpl; auto with suff|].
    set (s := c0 :: s0) in *.
    pose proof (skip_empty_suffix s) as HS.
    destruct (skip_empty s) as [|c s1] eqn:E1; [simpl; auto with suff|].
    pose proof (suffix_length _ _ HS) as HL1.
    destruct (beq c "]"%byte); [simpl; eapply suffix_uncons; exact HS|].
    specialize (IHv sess (c :: s1) ltac:(discriminate) ltac:(simpl in *; lia)).
    destruct (parse_value n sess (c :: s1)) as [[v ss] s2|e r|p|]; simpl in IHv; try contradiction; auto.
    2:{ simpl. eapply suffix_trans; eassumption. }
    assert (suffix s2 s) as HS2 by (eapply suffix_trans; [eapply ssuffix_suffix; eassumption|exact HS]).
    pose proof (skip_empty_suffix s2) as HS2'.
    destruct (skip_empty s2) as [|c3 s3]; [simpl; auto with suff|].
    assert (suffix (c3 :: s3) s) as HS3 by (eapply suffix_trans; eassumption).
    destruct (beq c3 ","%byte); [|destruct (beq c3 "]"%byte); simpl; [eapply suffix_uncons|]; exact HS3].
    assert (2 * length s3 + 1 <= n)%nat as HL3.
    { pose proof (suffix_length _ _ HS3). simpl in *. lia. }
    specialize (IHa ss (v :: acc) s3 HL3). unfold loop_good in *.
    destruct (array_loop n ss (v :: acc) s3); try contradiction; auto;
      (eapply suffix_trans; [exact IHa|]; eapply suffix_uncons; exact HS3).
Qed.

(** More fuel does not change a finished run. *)
Lemma parse_mono n : forall m, (n <= m)%nat ->
  (forall sess s, parse_value n sess s <> PFuel -> parse_value m sess s = parse_value n sess s)
  /\ (forall sess acc nid s, dict_loop n sess acc nid s <> PFuel ->
        dict_loop m sess acc nid s = dict_loop n sess acc nid s)
  /\ (forall sess acc s, array_loop n sess acc s <> PFuel ->
        array_loop m sess acc s = array_loop n sess acc s).
Proof.
  induction n as [|n IH]; intros m Hm.
  { repeat split; intros; exfalso; apply H; reflexivity. }
  destruct m as [|m]; [lia|]. destruct (IH m ltac:(lia)) as (IHv & IHd & IHa). clear IH.
  split; [|split].
  - intros sess s H. cbn [parse_value] in H |- *. destruct s as [|c s]; [reflexivity|].
    destruct (beq c "["%byte); [|destruct (beq c "{"%byte); [|reflexivity]].
    + rewrite IHa; [reflexivity|]. intros C. rewrite C in H. congruence.
    + rewrite IHd; [reflexivity|]. intros C. rewrite C in H. congruence.
  - intros sess acc nid s H. cbn [dict_loop] in H |- *.
    destruct s as [|c0 s0]; [reflexivity|].
    destruct (skip_empty (c0 :: s0)) as [|c s1]; [reflexivity|].
    destruct (beq c "}"%byte); [reflexivity|].
    destruct (parse_string (c :: s1)) as [[key b] s2|e r|p|]; try reflexivity.
    destruct (skip_empty s2) as [|c3 s3]; [reflexivity|].
    destruct (negb (beq c3 ":"%byte)); [reflexivity|].
    destruct (skip_empty s3) as [|c4 s4]; [reflexivity|].
    assert (parse_value m sess (c4 :: s4) = parse_value n sess (c4 :: s4)) as ->.
    { apply IHv. intros C. rewrite C in H. congruence. }
    destruct (parse_value n sess (c4 :: s4)) as [[v ss] s5|e r|p|]; try reflexivity.
    destruct (bseq key jnid_key); [destruct v; try reflexivity|];
      (destruct (skip_empty s5) as [|c6 s6]; [reflexivity|];
       destruct (beq c6 ","%byte); [|reflexivity]; apply IHd; exact H).
  - intros sess acc s H. cbn [array_loop] in H |- *.
    destruct s as [|c0 s0]; [reflexivity|].
    destruct (skip_empty (c0 :: s0)) as [|c s1]; [reflexivity|].
    destruct (beq c "]"%byte); [reflexivity|].
    assert (parse_value m sess (c :: s1) = parse_value n sess (c :: s1)) as ->.
    { apply IHv. intros C. rewrite C in H. congruence. }
    destruct (parse_value n sess (c :: s1)) as [[v ss] s5|e r|p|]; try reflexivity.
    destruct (skip_empty s5) as [|c6 s6]; [reflexivity|].
    destruct (beq c6 ","%byte); [|reflexivity]. apply IHa; exact H.
Qed.
