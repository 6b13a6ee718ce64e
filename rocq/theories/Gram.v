(** A proof device: texts made of tokens the scanner understands, quoted
    strings, and bracketed sequences; the parser accepts all of them with the
    value the structure says.  RFC texts and printed texts are instances. *)
From Verif Require Import Base Strconv SortedMap SortedMapFacts Utf8 Json Parser ParserFacts ParserFacts2.

Definition wsp (s : bytes) : Prop := Forall (fun c => is_ws c = true) s.

Definition opener (c : byte) : bool :=
  beq c """"%byte || beq c "'"%byte || beq c "["%byte || beq c "{"%byte.

Definition tok_ok (t : bytes) (v : json) : Prop :=
  t <> [] /\ Forall (fun c => is_delim c = false) t /\ opener (hd x00 t) = false /\ bare_value t = Some v.

Definition quoted_ok (t s : bytes) : Prop :=
  exists q body, (q = """"%byte \/ q = "'"%byte) /\ t = q :: body ++ [q]
    /\ forall acc rest, parse_quoted q acc (body ++ q :: rest) = POk (rev acc ++ s) rest.

Fixpoint fold_members (ms : list (bytes * json)) (nid : Z) (acc : smap json) : option (Z * smap json) :=
  match ms with
  | [] => Some (nid, acc)
  | (k, v) :: ms' =>
      if bseq k jnid_key then match v with JInt z => fold_members ms' z acc | _ => None end
      else fold_members ms' nid (sm_add acc k v)
  end.

Inductive gval : bool -> bytes -> json -> list Z -> Prop :=
| g_tok t v : tok_ok t v -> gval false t v []
| g_str t s : quoted_ok t s -> gval true t (JString s) []
| g_arr0 w : wsp w -> gval true ("["%byte :: w ++ ["]"%byte]) (JArray []) []
| g_arr t l ids : gelems t l ids -> gval true ("["%byte :: t ++ ["]"%byte]) (JArray l) ids
| g_obj0 w : wsp w -> gval true ("{"%byte :: w ++ ["}"%byte]) (JDict 0 []) []
| g_obj t ms nid kvs ids : gmembers t ms ids -> fold_members ms 0 [] = Some (nid, kvs) ->
    gval true ("{"%byte :: t ++ ["}"%byte]) (JDict nid kvs) (ids ++ if 0 <? nid then [nid] else [])
with gelems : bytes -> list json -> list Z -> Prop :=
| ge_one w1 b t w2 v ids : wsp w1 -> gval b t v ids -> wsp w2 -> gelems (w1 ++ t ++ w2) [v] ids
| ge_more w1 b t w2 v ids t' l ids' : wsp w1 -> gval b t v ids -> wsp w2 -> gelems t' l ids' ->
    gelems (w1 ++ t ++ w2 ++ ","%byte :: t') (v :: l) (ids ++ ids')
with gmembers : bytes -> list (bytes * json) -> list Z -> Prop :=
| gm_one w1 kt k w2 w3 b t w4 v ids : wsp w1 -> quoted_ok kt k -> wsp w2 -> wsp w3 ->
    gval b t v ids -> wsp w4 ->
    gmembers (w1 ++ kt ++ w2 ++ ":"%byte :: w3 ++ t ++ w4) [(k, v)] ids
| gm_more w1 kt k w2 w3 b t w4 v ids t' ms ids' : wsp w1 -> quoted_ok kt k -> wsp w2 -> wsp w3 ->
    gval b t v ids -> wsp w4 -> gmembers t' ms ids' ->
    gmembers (w1 ++ kt ++ w2 ++ ":"%byte :: w3 ++ t ++ w4 ++ ","%byte :: t') ((k, v) :: ms) (ids ++ ids').

Scheme gval_mut := Minimality for gval Sort Prop
  with gelems_mut := Minimality for gelems Sort Prop
  with gmembers_mut := Minimality for gmembers Sort Prop.
Combined Scheme gram_ind from gval_mut, gelems_mut, gmembers_mut.

Definition rest_ok (rest : bytes) : Prop :=
  match rest with [] => True | c :: _ => is_delim c = true end.

Lemma rest_ok_ws w c r : wsp w -> is_delim c = true -> rest_ok (w ++ c :: r).
Proof.
  intros H Hc. destruct H as [|a w Ha _]; [exact Hc|]. simpl.
  unfold is_ws in Ha. unfold is_delim.
  destruct (beq a " "%byte), (beq a x09), (beq a x0a), (beq a x0d); simpl in *;
    try discriminate; rewrite ?orb_true_r; reflexivity.
Qed.

Lemma ws_delim c : is_delim c = false -> is_ws c = false.
Proof.
  unfold is_ws, is_delim.
  destruct (beq c " "%byte), (beq c x09), (beq c x0a), (beq c x0d); simpl;
    rewrite ?orb_true_r; try reflexivity; discriminate.
Qed.

(** First byte of a value text. *)
Lemma quoted_head t s : quoted_ok t s -> exists q r, t = q :: r /\ (q = """"%byte \/ q = "'"%byte).
Proof. intros (q & body & Hq & -> & _). eauto. Qed.

Definition starter (c : byte) : Prop := is_ws c = false /\ beq c "]"%byte = false /\ beq c "}"%byte = false.

Lemma gval_head b t v ids : gval b t v ids -> exists c r, t = c :: r /\ starter c.
Proof.
  assert (forall r c, starter c -> exists c0 r0, c :: r = c0 :: r0 /\ starter c0) as X by eauto.
  destruct 1 as [t v H|t s H|w H|t l ids H|w H|t ms nid kvs ids H H'].
  - destruct H as (Hne & Hd & Ho & _). destruct t as [|c t]; [congruence|].
    exists c, t. split; [reflexivity|]. inversion Hd as [|? ? Hc _]; subst.
    split; [apply ws_delim; exact Hc|]. unfold is_delim in Hc.
    destruct (beq c "}"%byte), (beq c "]"%byte); rewrite ?orb_true_r in Hc; auto; discriminate.
  - destruct (quoted_head t s H) as (q & r & -> & [-> | ->]); apply X; repeat split.
  - apply X; repeat split. 
  - apply X; repeat split.
  - apply X; repeat split.
  - apply X; repeat split.
Qed.

Lemma parse_string_quoted t s rest : quoted_ok t s -> parse_string (t ++ rest) = POk (s, true) rest.
Proof.
  intros (q & body & Hq & -> & H). cbn [app parse_string].
  assert (beq q """"%byte || beq q "'"%byte = true) as -> by (destruct Hq as [-> | ->]; reflexivity).
  rewrite <- app_assoc. cbn [app]. rewrite H. reflexivity.
Qed.

Lemma parse_scalar_quoted t s rest : quoted_ok t s -> parse_scalar (t ++ rest) = POk (JString s) rest.
Proof. intros H. unfold parse_scalar. rewrite (parse_string_quoted t s rest H). destruct s; reflexivity. Qed.

Lemma parse_scalar_tok t v rest : tok_ok t v -> rest_ok rest -> parse_scalar (t ++ rest) = POk v rest.
Proof.
  intros (Hne & Hd & Ho & Hv) Hr. unfold parse_scalar, parse_string.
  destruct t as [|c t]; [congruence|]. cbn [app hd] in *.
  unfold opener in Ho.
  destruct (beq c """"%byte), (beq c "'"%byte); try discriminate. cbn [orb].
  assert (bare_token (c :: t ++ rest) = (c :: t, rest)) as ->.
  { change (c :: t ++ rest) with ((c :: t) ++ rest). destruct rest as [|a rest].
    - rewrite app_nil_r. apply bare_token_end. exact Hd.
    - apply bare_token_app; assumption. }
  rewrite Hv. reflexivity.
Qed.

Definition fresh (ids sess : list Z) : Prop := NoDup (rev ids ++ sess).

Lemma NoDup_app_r {A} (l r : list A) : NoDup (l ++ r) -> NoDup r.
Proof. induction l as [|x l IH]; simpl; [auto|]. intros H. inversion H; auto. Qed.

Lemma fresh_app_l i j sess : fresh (i ++ j) sess -> fresh i sess.
Proof. unfold fresh. rewrite rev_app_distr, <- app_assoc. apply NoDup_app_r. Qed.
Lemma fresh_app_r i j sess : fresh (i ++ j) sess -> fresh j (rev i ++ sess).
Proof. unfold fresh. rewrite rev_app_distr, <- app_assoc. auto. Qed.

Lemma save_node_fresh sess nid : ~ In nid sess -> save_node sess nid = Some (nid :: sess).
Proof.
  intros H. unfold save_node. destruct (existsb (Z.eqb nid) sess) eqn:E; [|reflexivity].
  apply existsb_exists in E as (x & Hx & Ex). apply Z.eqb_eq in Ex. subst. contradiction.
Qed.

Lemma skip_ws_head w c r : wsp w -> is_ws c = false -> skip_empty (w ++ c :: r) = c :: r.
Proof. apply skip_empty_app. Qed.

Theorem gram_parse :
  (forall b t v ids, gval b t v ids -> exists N, forall n sess rest, (N <= n)%nat -> fresh ids sess ->
     (b = false -> rest_ok rest) ->
     parse_value n sess (t ++ rest) = POk (v, rev ids ++ sess) rest)
  /\ (forall t l ids, gelems t l ids -> exists N, forall n sess acc rest, (N <= n)%nat -> fresh ids sess ->
        array_loop n sess acc (t ++ "]"%byte :: rest) = POk (rev acc ++ l, rev ids ++ sess) rest)
  /\ (forall t ms ids, gmembers t ms ids -> exists N, forall n sess acc nid nid' kvs rest, (N <= n)%nat ->
        fresh ids sess -> fold_members ms nid acc = Some (nid', kvs) ->
        dict_loop n sess acc nid (t ++ "}"%byte :: rest) = POk (kvs, nid', rev ids ++ sess) rest).
Proof.
  apply gram_ind.
  - (* token *)
    intros t v H. exists 1%nat. intros n sess rest Hn _ Hr. destruct n as [|n]; [lia|].
    pose proof (parse_scalar_tok t v rest H (Hr eq_refl)) as P.
    destruct H as (Hne & _ & Ho & _). destruct t as [|c t]; [congruence|]. cbn [hd] in Ho.
    cbn [app parse_value] in *. unfold opener in Ho.
    destruct (beq c "["%byte), (beq c "{"%byte); rewrite ?orb_true_r in Ho; try discriminate.
    rewrite P. reflexivity.
  - (* string *)
    intros t s H. exists 1%nat. intros n sess rest Hn _ _. destruct n as [|n]; [lia|].
    pose proof (parse_scalar_quoted t s rest H) as P.
    destruct (quoted_head t s H) as (q & r & -> & Hq). cbn [app parse_value] in *.
    assert (beq q "["%byte = false) as -> by (destruct Hq as [-> | ->]; reflexivity).
    assert (beq q "{"%byte = false) as -> by (destruct Hq as [-> | ->]; reflexivity).
    rewrite P. reflexivity.
  - (* [] *)
    intros w Hw. exists 2%nat. intros n sess rest Hn _ _. destruct n as [|[|n]]; try lia.
    cbn [app parse_value]. change (beq "["%byte "["%byte) with true. cbv iota.
    rewrite <- app_assoc. cbn [app array_loop].
    assert (exists a b, w ++ "]"%byte :: rest = a :: b) as (a & b & E) by (destruct w; cbn [app]; eauto).
    rewrite E, <- E. rewrite skip_ws_head by (assumption || reflexivity).
    reflexivity.
  - (* [elements] *)
    intros t l ids _ [N IH]. exists (S N). intros n sess rest Hn Hf _. destruct n as [|n]; [lia|].
    cbn [app parse_value]. change (beq "["%byte "["%byte) with true. cbv iota.
    rewrite <- app_assoc. cbn [app]. rewrite IH by (assumption || lia). reflexivity.
  - (* {} *)
    intros w Hw. exists 2%nat. intros n sess rest Hn _ _. destruct n as [|[|n]]; try lia.
    cbn [app parse_value]. change (beq "{"%byte "["%byte) with false.
    change (beq "{"%byte "{"%byte) with true. cbv iota.
    rewrite <- app_assoc. cbn [app dict_loop].
    assert (exists a b, w ++ "}"%byte :: rest = a :: b) as (a & b & E) by (destruct w; cbn [app]; eauto).
    rewrite E, <- E. rewrite skip_ws_head by (assumption || reflexivity).
    reflexivity.
  - (* {members} *)
    intros t ms nid kvs ids _ [N IH] HFM. exists (S N). intros n sess rest Hn Hf _. destruct n as [|n]; [lia|].
    cbn [app parse_value]. change (beq "{"%byte "["%byte) with false.
    change (beq "{"%byte "{"%byte) with true. cbv iota.
    rewrite <- app_assoc. cbn [app].
    rewrite (IH n sess sm_empty 0 nid kvs rest ltac:(lia) (fresh_app_l _ _ _ Hf) HFM).
    destruct (0 <? nid).
    + unfold fresh in Hf. rewrite rev_app_distr in Hf. cbn [rev app] in Hf.
      inversion Hf as [|? ? Hni _]; subst. rewrite save_node_fresh by exact Hni.
      rewrite rev_app_distr. reflexivity.
    + rewrite app_nil_r. reflexivity.
  - (* one element *)
    intros w1 b t w2 v ids Hw1 Hg [N IH] Hw2. exists (S (S N)). intros n sess acc rest Hn Hf.
    destruct n as [|n]; [lia|]. cbn [array_loop].
    destruct (gval_head _ _ _ _ Hg) as (c & r & -> & Hs1 & Hs2 & _).
    rewrite <- !app_assoc. cbn [app].
    assert (exists a x, w1 ++ c :: r ++ w2 ++ "]"%byte :: rest = a :: x) as (a & x & E).
    { destruct w1; cbn [app]; eauto. }
    rewrite E, <- E.
    rewrite skip_ws_head by assumption. rewrite Hs2.
    specialize (IH n sess (w2 ++ "]"%byte :: rest) ltac:(lia) Hf). cbn [app] in IH.
    rewrite IH by (intros _; apply rest_ok_ws; [assumption|reflexivity]).
    rewrite skip_ws_head by (assumption || reflexivity).
    change (beq "]"%byte ","%byte) with false. change (beq "]"%byte "]"%byte) with true. cbv iota.
    reflexivity.
  - (* more elements *)
    intros w1 b t w2 v ids t' l ids' Hw1 Hg [N IH] Hw2 _ [N' IH']. exists (S (N + N')).
    intros n sess acc rest Hn Hf. destruct n as [|n]; [lia|]. cbn [array_loop].
    destruct (gval_head _ _ _ _ Hg) as (c & r & -> & Hs1 & Hs2 & _).
    rewrite <- !app_assoc. cbn [app]. rewrite <- ?app_assoc. cbn [app].
    assert (exists a x, w1 ++ c :: r ++ w2 ++ ","%byte :: t' ++ "]"%byte :: rest = a :: x) as (a & x & E).
    { destruct w1; cbn [app]; eauto. }
    rewrite E, <- E.
    rewrite skip_ws_head by assumption. rewrite Hs2.
    specialize (IH n sess (w2 ++ ","%byte :: t' ++ "]"%byte :: rest) ltac:(lia) (fresh_app_l _ _ _ Hf)).
    cbn [app] in IH.
    rewrite IH by (intros _; apply rest_ok_ws; [assumption|reflexivity]).
    rewrite skip_ws_head by (assumption || reflexivity).
    change (beq ","%byte ","%byte) with true. cbv iota.
    rewrite (IH' n (rev ids ++ sess) (v :: acc) rest ltac:(lia) (fresh_app_r _ _ _ Hf)).
    rewrite rev_app_distr. cbn [rev]. rewrite <- !app_assoc. reflexivity.
  - (* one member(s) *)
    intros w1 kt k w2 w3 b t w4 v ids Hw1 Hk Hw2 Hw3 Hg [N IH] Hw4. exists (S N).
    intros n sess acc nid nid' kvs rest Hn Hf HFM. destruct n as [|n]; [lia|]. cbn [dict_loop].
    destruct (gval_head _ _ _ _ Hg) as (c & r & -> & Hs1 & Hs2 & Hs3).
    destruct (quoted_head _ _ Hk) as (q & kr & Ek & Hq).
    assert (is_ws q = false /\ beq q "}"%byte = false) as [Hq1 Hq2] by (destruct Hq as [-> | ->]; split; reflexivity).
    set (R := w4 ++ "}"%byte :: rest).
    assert ((w1 ++ kt ++ w2 ++ ":"%byte :: w3 ++ (c :: r) ++ w4) ++ "}"%byte :: rest
            = w1 ++ kt ++ w2 ++ ":"%byte :: w3 ++ c :: r ++ R) as E0
      by (unfold R; rewrite <- ?app_assoc; cbn [app]; rewrite <- ?app_assoc; cbn [app]; rewrite <- ?app_assoc; reflexivity).
    rewrite E0. clear E0.
    pose proof (parse_string_quoted kt k (w2 ++ ":"%byte :: w3 ++ c :: r ++ R) Hk) as PS.
    rewrite Ek in PS |- *. cbn [app] in PS |- *.
    assert (exists a x, w1 ++ q :: kr ++ w2 ++ ":"%byte :: w3 ++ c :: r ++ R = a :: x) as (a & x & E).
    { destruct w1; cbn [app]; eauto. }
    rewrite E, <- E. clear E.
    rewrite (skip_ws_head w1) by assumption. rewrite Hq2, PS.
    rewrite (skip_ws_head w2 ":"%byte) by (assumption || reflexivity).
    change (beq ":"%byte ":"%byte) with true. cbn [negb].
    rewrite (skip_ws_head w3) by assumption.
    specialize (IH n sess R ltac:(lia) Hf). cbn [app] in IH.
    rewrite IH by (intros _; apply rest_ok_ws; [assumption|reflexivity]).
    unfold R.
    rewrite (skip_ws_head w4) by (assumption || reflexivity).
    change (beq "}"%byte ","%byte) with false. change (beq "}"%byte "}"%byte) with true. cbv iota.
    cbn [fold_members] in HFM. destruct (bseq k jnid_key).
    + destruct v; try discriminate. injection HFM as <- <-. reflexivity.
    + injection HFM as <- <-. reflexivity.
  - (* more member(s) *)
    intros w1 kt k w2 w3 b t w4 v ids t' ms ids' Hw1 Hk Hw2 Hw3 Hg [N IH] Hw4 _ [N' IH']. exists (S (N + N')).
    intros n sess acc nid nid' kvs rest Hn Hf HFM. destruct n as [|n]; [lia|]. cbn [dict_loop].
    destruct (gval_head _ _ _ _ Hg) as (c & r & -> & Hs1 & Hs2 & Hs3).
    destruct (quoted_head _ _ Hk) as (q & kr & Ek & Hq).
    assert (is_ws q = false /\ beq q "}"%byte = false) as [Hq1 Hq2] by (destruct Hq as [-> | ->]; split; reflexivity).
    set (R := w4 ++ ","%byte :: t' ++ "}"%byte :: rest).
    assert ((w1 ++ kt ++ w2 ++ ":"%byte :: w3 ++ (c :: r) ++ w4 ++ ","%byte :: t') ++ "}"%byte :: rest
            = w1 ++ kt ++ w2 ++ ":"%byte :: w3 ++ c :: r ++ R) as E0
      by (unfold R; rewrite <- ?app_assoc; cbn [app]; rewrite <- ?app_assoc; cbn [app]; rewrite <- ?app_assoc; reflexivity).
    rewrite E0. clear E0.
    pose proof (parse_string_quoted kt k (w2 ++ ":"%byte :: w3 ++ c :: r ++ R) Hk) as PS.
    rewrite Ek in PS |- *. cbn [app] in PS |- *.
    assert (exists a x, w1 ++ q :: kr ++ w2 ++ ":"%byte :: w3 ++ c :: r ++ R = a :: x) as (a & x & E).
    { destruct w1; cbn [app]; eauto. }
    rewrite E, <- E. clear E.
    rewrite (skip_ws_head w1) by assumption. rewrite Hq2, PS.
    rewrite (skip_ws_head w2 ":"%byte) by (assumption || reflexivity).
    change (beq ":"%byte ":"%byte) with true. cbn [negb].
    rewrite (skip_ws_head w3) by assumption.
    specialize (IH n sess R ltac:(lia) (fresh_app_l _ _ _ Hf)). cbn [app] in IH.
    rewrite IH by (intros _; apply rest_ok_ws; [assumption|reflexivity]).
    unfold R.
    rewrite (skip_ws_head w4) by (assumption || reflexivity).
    change (beq ","%byte ","%byte) with true. cbv iota.
    assert (forall x y, POk (x, y, rev ids' ++ rev ids ++ sess) rest = POk (x, y, rev (ids ++ ids') ++ sess) rest :> pres (smap json * Z * list Z)) as RE.
    { intros. rewrite rev_app_distr, <- app_assoc. reflexivity. }
    cbn [fold_members] in HFM. destruct (bseq k jnid_key).
    + destruct v; try discriminate. rewrite <- RE.
      apply IH'; [lia|exact (fresh_app_r _ _ _ Hf)|exact HFM].
    + rewrite <- RE. apply IH'; [lia|exact (fresh_app_r _ _ _ Hf)|exact HFM].
Qed.

(** The parser on a whole grammar text, with white space around. *)
Lemma gram_parse_suffix b w t v ids rest : wsp w -> gval b t v ids -> NoDup ids ->
  (b = false -> rest_ok rest) -> parse_suffix (w ++ t ++ rest) = POk v rest.
Proof.
  intros Hw Hg Hnd Hr. destruct (proj1 gram_parse b t v ids Hg) as [N H].
  destruct (gval_head _ _ _ _ Hg) as (c & r & Et & Hs1 & _).
  assert (skip_empty (w ++ t ++ rest) = t ++ rest) as ES.
  { rewrite Et. cbn [app]. apply skip_ws_head; assumption. }
  apply (parse_suffix_intro _ N v (rev ids ++ [])).
  - rewrite ES, Et. discriminate.
  - rewrite ES. apply H; [lia| |exact Hr]. unfold fresh. rewrite app_nil_r. apply NoDup_rev. exact Hnd.
Qed.
