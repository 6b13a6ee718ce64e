(** More parser facts: independence of what follows, canonical results, no
    panic on well-slotted inputs. *)
From Verif Require Import Base Strconv StrconvFacts SpecFloat RoundFacts FloatText SortedMap SortedMapFacts Utf8 Json SpecJson Parser ParserFacts.

(** ** Independence of what follows *)

Lemma parse_quoted_tail q : forall n s acc t r, (length s <= n)%nat ->
  parse_quoted q acc s = POk t r -> r <> [] ->
  exists p, s = p ++ r /\ forall y, parse_quoted q acc (p ++ y) = POk t y.
Proof.
  induction n as [|n IH]; intros s acc t r Hn.
  - destruct s; [|simpl in Hn; lia]. simpl. intros [= <- <-] C. congruence.
  - destruct s as [|c s]; [simpl; intros [= <- <-] C; congruence|]. simpl in Hn.
    assert (forall pre k acc', s = pre ++ k -> (length k <= n)%nat ->
      (forall p y, p <> [] -> parse_quoted q acc (c :: pre ++ p ++ y) = parse_quoted q acc' (p ++ y)) ->
      (k <> [] -> parse_quoted q acc (c :: s) = parse_quoted q acc' k) ->
      parse_quoted q acc (c :: s) = POk t r -> k <> [] -> r <> [] ->
      exists p, c :: s = p ++ r /\ forall y, parse_quoted q acc (p ++ y) = POk t y) as X.
    { intros pre k acc' E Hk Hstep Hstep0 HP Hne Hr. rewrite (Hstep0 Hne) in HP.
      destruct (IH k acc' t r Hk HP Hr) as (p & -> & HY).
      destruct p as [|p0 p].
      - exfalso. simpl in *. specialize (HY []). simpl in HY. injection HY as HY1.
        (* consuming nothing: impossible as the loop always consumes the quote *)
        assert (forall m s acc t r, (length s <= m)%nat -> parse_quoted q acc s = POk t r -> r <> [] ->
                 (length r < length s)%nat) as SL.
        { clear. induction m as [|m IHm]; intros s acc t r Hm; destruct s as [|c s]; simpl;
            try (intros [= <- <-] C; congruence); simpl in Hm; try lia.
          destruct (beq c "\"%byte).
          - destruct s as [|e s2]; [discriminate|]. simpl in Hm.
            repeat match goal with
              | |- context [if beq e ?b then _ else _] => destruct (beq e b)
              end; try (intros H1 H2; apply IHm in H1; [simpl; lia|lia|exact H2]).
            + destruct s2 as [|h1 [|h2 [|h3 [|h4 [|h5 s3]]]]]; try discriminate.
              destruct (hexstr2rune h1 h2 h3 h4); [|discriminate].
              intros H1 H2; apply IHm in H1; [simpl in *; lia|simpl in *; lia|exact H2].
            + destruct s2 as [|h1 [|h2 [|h5 s3]]]; try discriminate.
              destruct (hexstr2byte h1 h2); [|discriminate].
              intros H1 H2; apply IHm in H1; [simpl in *; lia|simpl in *; lia|exact H2].
          - destruct (beq c q).
            + intros [= <- <-] _. lia.
            + intros H1 H2; apply IHm in H1; [lia|lia|exact H2]. }
        pose proof (SL (length r) r acc' t r (le_n _) HP Hr). lia.
      - exists (c :: pre ++ p0 :: p). split; [rewrite E; cbn [app]; rewrite <- app_assoc; reflexivity|].
        intros y. cbn [app]. rewrite <- app_assoc.
        rewrite Hstep by discriminate. apply HY. }
    intros HP Hr.
    assert (forall k, suffix k s -> (length k <= n)%nat) as HL.
    { intros k HS. apply suffix_length in HS. lia. }
    revert HP. 
    destruct (beq c "\"%byte) eqn:Ec.
    + apply beq_eq in Ec; subst c. destruct s as [|e s2]; [simpl; discriminate|].
      destruct (beq e "u"%byte) eqn:Eu.
      { apply beq_eq in Eu; subst e.
        destruct s2 as [|h1 [|h2 [|h3 [|h4 [|h5 s3]]]]]; try (cbn; discriminate).
        cbn. destruct (hexstr2rune h1 h2 h3 h4) as [ru|] eqn:ER; [|discriminate].
        intros HP. apply (X ["u"%byte; h1; h2; h3; h4] (h5 :: s3) (rev (encode_rune ru) ++ acc));
          try reflexivity; try discriminate; try assumption.
        - simpl in *; lia.
        - intros [|p0 p] y Hp; [congruence|]. cbn. rewrite ER. reflexivity.
        - intros _. cbn. rewrite ER. reflexivity.
        - cbn. rewrite ER. exact HP. }
      destruct (beq e "x"%byte) eqn:Ex.
      { apply beq_eq in Ex; subst e.
        destruct s2 as [|h1 [|h2 [|h5 s3]]]; try (cbn; discriminate).
        cbn. destruct (hexstr2byte h1 h2) as [ru|] eqn:ER; [|discriminate].
        intros HP. apply (X ["x"%byte; h1; h2] (h5 :: s3) (zb ru :: acc));
          try reflexivity; try discriminate; try assumption.
        - simpl in *; lia.
        - intros [|p0 p] y Hp; [congruence|]. cbn. rewrite ER. reflexivity.
        - intros _. cbn. rewrite ER. reflexivity.
        - cbn. rewrite ER. exact HP. }
      assert (exists b, forall z, parse_quoted q acc ("\"%byte :: e :: z) = parse_quoted q (b :: acc) z) as [b Hb].
      { cbn [parse_quoted]. change (beq "\"%byte "\"%byte) with true. cbv iota. rewrite Eu, Ex.
        repeat match goal with
        | |- context [if beq e ?b then _ else _] => destruct (beq e b)
        end; eexists; intros; reflexivity. }
      intros HP. destruct s2 as [|a s2].
      { rewrite Hb in HP. simpl in HP. injection HP as <- <-. congruence. }
      apply (X [e] (a :: s2) (b :: acc)); try reflexivity; try discriminate; try assumption.
      * simpl in *; lia.
      * intros p y Hp. apply Hb.
      * intros _. apply Hb.
    + destruct (beq c q) eqn:Eq.
      * cbn [parse_quoted]. rewrite Ec, Eq. intros [= <- <-].
        exists [c]. split; [reflexivity|]. intros y. cbn [app parse_quoted]. rewrite Ec, Eq. reflexivity.
      * intros HP. destruct s as [|a s].
        { cbn [parse_quoted] in HP. rewrite Ec, Eq in HP. simpl in HP. injection HP as <- <-. congruence. }
        apply (X [] (a :: s) (c :: acc)); try reflexivity; try discriminate; try assumption.
        -- simpl in *; lia.
        -- intros p y Hp. cbn [app parse_quoted]. rewrite Ec, Eq. reflexivity.
        -- intros _. cbn [parse_quoted]. rewrite Ec, Eq. reflexivity.
Qed.

Lemma bare_token_app t c y : Forall (fun a => is_delim a = false) t -> is_delim c = true ->
  bare_token (t ++ c :: y) = (t, c :: y).
Proof.
  induction 1 as [|a t Ha _ IH]; intros Hc; simpl.
  - rewrite Hc. reflexivity.
  - rewrite Ha, IH by exact Hc. reflexivity.
Qed.

Lemma bare_token_end t : Forall (fun a => is_delim a = false) t -> bare_token t = (t, []).
Proof. induction 1 as [|a t Ha _ IH]; simpl; [reflexivity|]. rewrite Ha, IH. reflexivity. Qed.

(** A scalar followed by the byte c: anything may come behind c.  A quoted
    scalar does not even look at c. *)
Lemma parse_scalar_tail s v c r : parse_scalar s = POk v (c :: r) ->
  exists p, p <> [] /\ s = p ++ c :: r /\ forall y, parse_scalar (p ++ c :: y) = POk v (c :: y).
Proof.
  destruct s as [|a s]; [discriminate|]. unfold parse_scalar, parse_string.
  destruct (beq a """"%byte || beq a "'"%byte) eqn:EQ.
  - destruct (parse_quoted a [] s) as [t r'|e r'|p|] eqn:EP; try discriminate.
    intros H. assert (v = JString t /\ r' = c :: r) as [-> ->] by (destruct t; injection H as <- <-; auto).
    destruct (parse_quoted_tail a (length s) s [] t (c :: r) (le_n _) EP ltac:(discriminate))
      as (p & -> & HY).
    exists (a :: p). split; [discriminate|]. split; [reflexivity|]. intros y. cbn [app].
    rewrite EQ, HY. destruct t; reflexivity.
  - destruct (bare_token (a :: s)) as [t r'] eqn:EB.
    apply bare_token_split in EB as (E & HF & HD).
    destruct t as [|b t]; [discriminate|].
    destruct (bare_value (b :: t)) eqn:EV; [|discriminate].
    intros [= <- ->]. exists (b :: t). split; [discriminate|]. split; [exact E|]. intros y.
    injection E as <- _. cbn [app]. rewrite EQ.
    change (a :: t ++ c :: y) with ((a :: t) ++ c :: y).
    rewrite bare_token_app by assumption. rewrite EV. reflexivity.
Qed.

Lemma skip_empty_split s : exists w, s = w ++ skip_empty s /\ Forall (fun c => is_ws c = true) w.
Proof.
  induction s as [|c s (w & E & F)]; [exists []; auto|]. simpl. destruct (is_ws c) eqn:W.
  - exists (c :: w). split; [cbn; rewrite E at 1; reflexivity|constructor; assumption].
  - exists []. auto.
Qed.

Lemma skip_empty_app w c s : Forall (fun c => is_ws c = true) w -> is_ws c = false ->
  skip_empty (w ++ c :: s) = c :: s.
Proof. induction 1 as [|a w Ha _ IH]; intros H; simpl; [rewrite H; reflexivity|]. rewrite Ha. auto. Qed.

Lemma skip_empty_all w : Forall (fun c => is_ws c = true) w -> skip_empty w = [].
Proof. induction 1 as [|a w Ha _ IH]; simpl; [reflexivity|]. rewrite Ha. exact IH. Qed.

Definition closed_value (v : json) : Prop := match v with JArray _ | JDict _ _ => True | _ => False end.

(** Key position: the token and the byte behind it. *)
Lemma parse_string_tail s k b c r : parse_string s = POk (k, b) (c :: r) -> s <> [] ->
  (b = false -> is_delim c = true) ->
  exists p, s = p ++ c :: r /\ forall y, parse_string (p ++ c :: y) = POk (k, b) (c :: y).
Proof.
  destruct s as [|a s]; [congruence|]. unfold parse_string.
  destruct (beq a """"%byte || beq a "'"%byte) eqn:EQ.
  - destruct (parse_quoted a [] s) as [t r'|e r'|p|] eqn:EP; try discriminate.
    intros [= -> <- ->] _ _.
    destruct (parse_quoted_tail a (length s) s [] k (c :: r) (le_n _) EP ltac:(discriminate))
      as (p & -> & HY).
    exists (a :: p). split; [reflexivity|]. intros y. cbn [app]. rewrite EQ, HY. reflexivity.
  - destruct (bare_token (a :: s)) as [t r'] eqn:EB.
    apply bare_token_split in EB as (E & HF & HD). intros [= -> <- ->] _ Hc.
    exists k. split; [exact E|]. intros y. destruct k as [|k0 k].
    + cbn [app] in E |- *. injection E as <- _. rewrite EQ. simpl. rewrite HD. reflexivity.
    + injection E as <- _. cbn [app]. rewrite EQ.
      change (a :: k ++ c :: y) with ((a :: k) ++ c :: y).
      rewrite bare_token_app by assumption. reflexivity.
Qed.

Lemma parse_string_delim s k c r : parse_string s = POk (k, false) (c :: r) -> is_delim c = true.
Proof.
  destruct s as [|a s]; [discriminate|]. unfold parse_string.
  destruct (beq a """"%byte || beq a "'"%byte).
  - destruct (parse_quoted a [] s); discriminate.
  - destruct (bare_token (a :: s)) as [t r'] eqn:EB.
    apply bare_token_split in EB as (E & HF & HD). intros [= -> ->]. exact HD.
Qed.

(** Split of what follows a token: white space then a significant byte. *)
Lemma skip_empty_cons_split s c r : skip_empty s = c :: r ->
  exists w, s = w ++ c :: r /\ Forall (fun c => is_ws c = true) w /\ is_ws c = false.
Proof.
  intros H. destruct (skip_empty_split s) as (w & E & F). rewrite H in E.
  exists w. repeat split; try assumption. eapply skip_empty_head; exact H.
Qed.

Lemma parse_tail n :
  (forall sess s v ss c r, parse_value n sess s = POk (v, ss) (c :: r) ->
     exists p, s = p ++ c :: r
       /\ (forall y, parse_value n sess (p ++ c :: y) = POk (v, ss) (c :: y))
       /\ (closed_value v -> forall y, parse_value n sess (p ++ y) = POk (v, ss) y))
  /\ (forall sess acc nid s x r, dict_loop n sess acc nid s = POk x r -> r <> [] ->
        exists p, p <> [] /\ s = p ++ r /\ forall y, dict_loop n sess acc nid (p ++ y) = POk x y)
  /\ (forall sess acc s x r, array_loop n sess acc s = POk x r -> r <> [] ->
        exists p, p <> [] /\ s = p ++ r /\ forall y, array_loop n sess acc (p ++ y) = POk x y).
Proof.
  induction n as [|n (IHv & IHd & IHa)]; [repeat split; intros; discriminate|].
  split; [|split].
  - intros sess s v ss c r. cbn [parse_value]. destruct s as [|a s]; [discriminate|].
    destruct (beq a "["%byte) eqn:E1; [|destruct (beq a "{"%byte) eqn:E2].
    + destruct (array_loop n sess [] s) as [[l ss'] r'|e r'|p|] eqn:EL; try discriminate.
      intros [= <- <- ->]. destruct (IHa _ _ _ _ _ EL ltac:(discriminate)) as (p & Hp & -> & HY).
      assert (forall y, parse_value (S n) sess (a :: p ++ y) = POk (JArray l, ss') y) as Z.
      { intros y. cbn [parse_value]. rewrite E1, HY. reflexivity. }
      exists (a :: p). split; [reflexivity|]. split; [intros y; apply Z|intros _ y; apply Z].
    + destruct (dict_loop n sess sm_empty 0 s) as [[[l nid] ss'] r'|e r'|p|] eqn:EL; try discriminate.
      intros H.
      assert (r' = c :: r) as ->.
      { destruct (0 <? nid)%Z; [destruct (save_node ss' nid); [|discriminate]|]; injection H as _ _ ->; reflexivity. }
      destruct (IHd _ _ _ _ _ _ EL ltac:(discriminate)) as (p & Hp & -> & HY).
      assert (forall y, parse_value (S n) sess (a :: p ++ y) = POk (v, ss) y) as Z.
      { intros y. cbn [parse_value]. rewrite E1, E2, HY.
        destruct (0 <? nid)%Z; [destruct (save_node ss' nid); [|discriminate]|]; injection H as <- <-; reflexivity. }
      exists (a :: p). split; [reflexivity|]. split; [intros y; apply Z|intros _ y; apply Z].
    + destruct (parse_scalar (a :: s)) as [v' r'|e r'|p|] eqn:EP; try discriminate.
      intros [= <- <- ->]. destruct (parse_scalar_tail _ _ _ _ EP) as (p & Hp & E & HY).
      exists p. split; [exact E|]. split.
      * intros y. destruct p as [|p0 p]; [congruence|]. injection E as <- _.
        cbn [app parse_value]. rewrite E1, E2.
        change (a :: p ++ c :: y) with ((a :: p) ++ c :: y). rewrite HY. reflexivity.
      * intros C. exfalso. revert EP. unfold parse_scalar.
        destruct (parse_string (a :: s)) as [[t [|]] r''|e r''|pp|]; try discriminate.
        -- destruct t; intros [= <- _]; exact C.
        -- destruct t as [|t0 t]; [discriminate|]. destruct (bare_value (t0 :: t)) eqn:EB; [|discriminate].
           intros [= <- _]. revert EB C. unfold bare_value.
           destruct (_ && _); [destruct (parse_int _); [|discriminate]; intros [= <-]; auto|].
           destruct (_ || _); [intros [= <-]; auto|].
           destruct (_ || _); [intros [= <-]; auto|].
           destruct (_ || _); [intros [= <-]; auto|].
           destruct (parse_int _); [intros [= <-]; auto|].
           destruct (parse_float _ _); intros [= <-]; auto.
  - intros sess acc nid s x r. cbn [dict_loop].
    destruct s as [|c0 s0]; [intros [= <- <-] C; congruence|].
    set (s := c0 :: s0).
    destruct (skip_empty s) as [|c s1] eqn:ES; [discriminate|].
    destruct (skip_empty_cons_split _ _ _ ES) as (w & Es & Hw & Hc).
    assert (forall z, skip_empty (w ++ c :: z) = c :: z) as SK by (intros; apply skip_empty_app; assumption).
    assert (forall z, exists a b, w ++ c :: z = a :: b) as NE.
    { intros z. destruct w as [|w0 w']; cbn [app]; eauto. }
    destruct (beq c "}"%byte) eqn:E1.
    { intros [= <- <-] _. exists (w ++ [c]). split; [destruct w; discriminate|].
      split; [rewrite <- app_assoc; exact Es|]. intros y. rewrite <- app_assoc. cbn [app].
      destruct (NE y) as (a & b & EN). rewrite EN. rewrite <- EN, SK, E1. reflexivity. }
    destruct (parse_string (c :: s1)) as [[key b] s2|e rr|p|] eqn:EP; try discriminate.
    destruct (skip_empty s2) as [|c3 s3] eqn:ES2; [discriminate|].
    destruct (skip_empty_cons_split _ _ _ ES2) as (w2 & Es2 & Hw2 & Hc3).
    destruct (beq c3 ":"%byte) eqn:E3; [cbn [negb]|discriminate].
    destruct (skip_empty s3) as [|c4 s4] eqn:ES3; [discriminate|].
    destruct (skip_empty_cons_split _ _ _ ES3) as (w3 & Es3 & Hw3 & Hc4).
    destruct (parse_value n sess (c4 :: s4)) as [[v ss] s5|e rr|p|] eqn:EV; try discriminate.
    (* common continuation *)
    set (K := fun s5 => if bseq key jnid_key
        then match v with
             | JInt z => match skip_empty s5 with
                         | [] => PErr ETruncated []
                         | c6 :: s6 => if beq c6 ","%byte then dict_loop n ss acc z s6
                                       else if beq c6 "}"%byte then POk (acc, z, ss) s6
                                       else PErr EUnexpectedChar (c6 :: s6)
                         end
             | _ => PPanic PTypeAssertion
             end
        else match skip_empty s5 with
             | [] => PErr ETruncated []
             | c6 :: s6 => if beq c6 ","%byte then dict_loop n ss (sm_add acc key v) nid s6
                           else if beq c6 "}"%byte then POk ((sm_add acc key v), nid, ss) s6
                           else PErr EUnexpectedChar (c6 :: s6)
             end).
    intros HK Hr. change (K s5 = POk x r) in HK.
    assert (exists c5 t5, s5 = c5 :: t5 /\ exists p5, s5 = p5 ++ r /\ p5 <> [] /\
              (forall y, exists z, p5 ++ y = c5 :: z) /\ forall y, K (p5 ++ y) = POk x y) as (c5 & t5 & Es5 & p5 & Ep5 & Np5 & Hhd & HKy).
    { assert (exists c6 s6, skip_empty s5 = c6 :: s6) as (c6 & s6 & ES5).
      { unfold K in HK. destruct (skip_empty s5); [|eauto].
        destruct (bseq key jnid_key); [destruct v|]; discriminate. }
      destruct (skip_empty_cons_split _ _ _ ES5) as (w5 & Es5 & Hw5 & Hc6).
      assert (forall z, skip_empty (w5 ++ c6 :: z) = c6 :: z) as SK5 by (intros; apply skip_empty_app; assumption).
      assert (exists p6, s6 = p6 ++ r /\ forall y, K (w5 ++ c6 :: p6 ++ y) = POk x y) as (p6 & -> & HK6).
      { unfold K in HK |- *. rewrite ES5 in HK.
        destruct (beq c6 ","%byte) eqn:E6.
        - destruct (bseq key jnid_key); [destruct v; try discriminate|];
            (destruct (IHd _ _ _ _ _ _ HK Hr) as (p6 & _ & -> & HY); exists p6; split; [reflexivity|intros y; rewrite SK5, E6; exact (HY y)]).
        - destruct (beq c6 "}"%byte) eqn:E7; [|destruct (bseq key jnid_key); [destruct v|]; discriminate].
          exists []. destruct (bseq key jnid_key); [destruct v; try discriminate|];
            (injection HK as <- <-; split; [reflexivity|intros y; rewrite SK5, E6, E7; reflexivity]). }
      destruct w5 as [|a5 w5]; cbn [app] in *.
      - exists c6, (p6 ++ r). split; [exact Es5|]. exists (c6 :: p6).
        repeat split; [exact Es5|discriminate|intros y; exists (p6 ++ y); reflexivity|exact HK6].
      - exists a5, (w5 ++ c6 :: p6 ++ r). split; [exact Es5|]. exists (a5 :: w5 ++ c6 :: p6).
        repeat split; [|discriminate| |].
        + rewrite Es5. cbn [app]. rewrite <- app_assoc. reflexivity.
        + intros y. cbn [app]. eauto.
        + intros y. cbn [app]. rewrite <- app_assoc. exact (HK6 y). }
    rewrite Es5 in EV.
    destruct (IHv _ _ _ _ _ _ EV) as (pv & Epv & HYv & _).
    assert (b = false -> is_delim (hd x00 s2) = true) as HDel.
    { intros ->. destruct s2 as [|c2 s2']; [discriminate|].
      eapply parse_string_delim. exact EP. }
    destruct s2 as [|c2 s2']; [discriminate|].
    destruct (parse_string_tail _ _ _ _ _ EP ltac:(discriminate) HDel) as (pk & Epk & HYk).
    (* s = w ++ pk ++ c2 :: s2' ; c2 :: s2' = w2 ++ c3 :: w3 ++ pv ++ p5 ++ r *)
    assert (exists u : unit, c2 :: s2' = w2 ++ c3 :: w3 ++ pv ++ p5 ++ r /\
             forall y, exists z, w2 ++ c3 :: w3 ++ pv ++ p5 ++ y = c2 :: z) as (_ & EE & HH).
    { exists tt. split.
      - rewrite Es2, Es3, Epv, <- Es5, Ep5. reflexivity.
      - intros y. destruct w2 as [|a2 w2]; cbn [app] in *; injection Es2 as <- _; eauto. }
    exists (w ++ pk ++ w2 ++ c3 :: w3 ++ pv ++ p5). split; [|split].
    + destruct w; [|discriminate]. destruct pk; [|discriminate]. destruct w2; discriminate.
    + fold s. rewrite Es, Epk, EE. rewrite !app_assoc. rewrite <- !app_assoc. cbn [app].
      rewrite <- !app_assoc. reflexivity.
    + intros y.
      destruct (HH y) as (z & Hz).
      assert ((w ++ pk ++ w2 ++ c3 :: w3 ++ pv ++ p5) ++ y = w ++ pk ++ c2 :: z) as ->.
      { rewrite <- Hz. rewrite <- !app_assoc. cbn [app]. rewrite <- !app_assoc. reflexivity. }
      assert (exists t, pk ++ c2 :: z = c :: t) as [t Et].
      { destruct pk as [|p0 pk]; cbn [app] in *; injection Epk as <- _; eauto. }
      rewrite Et. destruct (NE t) as (a & bb & EN). rewrite EN, <- EN, SK, E1, <- Et, HYk.
      rewrite <- Hz.
      rewrite (skip_empty_app w2 c3 _ Hw2 Hc3), E3. cbn [negb].
      destruct (Hhd y) as (z5 & Hz5). rewrite Hz5.
      assert (exists t4, pv ++ c5 :: z5 = c4 :: t4) as [t4 Et4].
      { destruct pv as [|p0 pv]; cbn [app] in *; injection Epv as <- _; eauto. }
      rewrite Et4, (skip_empty_app w3 c4 _ Hw3 Hc4), <- Et4, HYv, <- Hz5.
      exact (HKy y).
  - intros sess acc s x r. cbn [array_loop].
    destruct s as [|c0 s0]; [intros [= <- <-] C; congruence|].
    set (s := c0 :: s0).
    destruct (skip_empty s) as [|c s1] eqn:ES; [discriminate|].
    destruct (skip_empty_cons_split _ _ _ ES) as (w & Es & Hw & Hc).
    assert (forall z, skip_empty (w ++ c :: z) = c :: z) as SK by (intros; apply skip_empty_app; assumption).
    assert (forall z, exists a b, w ++ c :: z = a :: b) as NE.
    { intros z. destruct w as [|w0 w']; cbn [app]; eauto. }
    destruct (beq c "]"%byte) eqn:E1.
    { intros [= <- <-] _. exists (w ++ [c]). split; [destruct w; discriminate|].
      split; [rewrite <- app_assoc; exact Es|]. intros y. rewrite <- app_assoc. cbn [app].
      destruct (NE y) as (a & b & EN). rewrite EN. rewrite <- EN, SK, E1. reflexivity. }
    destruct (parse_value n sess (c :: s1)) as [[v ss] s5|e rr|p|] eqn:EV; try discriminate.
    destruct (skip_empty s5) as [|c6 s6] eqn:ES5; [discriminate|].
    destruct (skip_empty_cons_split _ _ _ ES5) as (w5 & Es5 & Hw5 & Hc6).
    intros HK Hr.
    assert (exists p6, s6 = p6 ++ r /\ forall y,
              (if beq c6 ","%byte then array_loop n ss (v :: acc) (p6 ++ y)
               else if beq c6 "]"%byte then POk (rev (v :: acc), ss) (p6 ++ y)
               else PErr EUnexpectedChar (c6 :: p6 ++ y)) = POk x y) as (p6 & -> & HK6).
    { destruct (beq c6 ","%byte).
      - destruct (IHa _ _ _ _ _ HK Hr) as (p6 & _ & -> & HY). eauto.
      - destruct (beq c6 "]"%byte); [|discriminate]. injection HK as <- <-.
        exists []. split; [reflexivity|]. intros; reflexivity. }
    assert (exists c5 t5, s5 = c5 :: t5) as (c5 & t5 & E5).
    { rewrite Es5. destruct w5; cbn [app]; eauto. }
    rewrite E5 in EV. destruct (IHv _ _ _ _ _ _ EV) as (pv & Epv & HYv & _).
    exists (w ++ pv ++ w5 ++ c6 :: p6). split; [|split].
    + destruct w; [|discriminate]. destruct pv; [|discriminate]. destruct w5; discriminate.
    + fold s. rewrite Es, Epv, <- E5, Es5. rewrite <- !app_assoc. cbn [app]. reflexivity.
    + intros y.
      assert (exists z, w5 ++ c6 :: p6 ++ y = c5 :: z) as [z Hz].
      { rewrite E5 in Es5. destruct w5 as [|a5 w5]; cbn [app] in *; injection Es5 as <- _; eauto. }
      assert ((w ++ pv ++ w5 ++ c6 :: p6) ++ y = w ++ pv ++ c5 :: z) as ->.
      { rewrite <- Hz. rewrite <- !app_assoc. cbn [app]. reflexivity. }
      assert (exists t, pv ++ c5 :: z = c :: t) as [t Et].
      { destruct pv as [|p0 pv]; cbn [app] in *; injection Epv as <- _; eauto. }
      rewrite Et. destruct (NE t) as (a & bb & EN). rewrite EN, <- EN, SK, E1, <- Et, HYv, <- Hz.
      rewrite (skip_empty_app w5 c6 _ Hw5 Hc6). exact (HK6 y).
Qed.

(** ** Parsed values are well-formed *)

Lemma parse_int_range s z : parse_int s = Some z -> in_int64 z = true.
Proof.
  assert (forall (neg : bool) ds, match parse_digits ds with
            | Some n => let v := if neg then - n else n in if in_int64 v then Some v else None
            | None => None end = Some z -> in_int64 z = true) as X.
  { intros neg ds. destruct (parse_digits ds) as [n|]; [|discriminate]. cbv zeta.
    destruct (in_int64 (if neg then - n else n)) eqn:E; [|discriminate]. intros [= <-]. exact E. }
  unfold parse_int. destruct s as [|c s]; [discriminate|].
  destruct (beq c "+"%byte); [exact (X false s)|].
  destruct (beq c "-"%byte); [exact (X true s)|exact (X false (c :: s))].
Qed.

Lemma round_pos_canon F p q m e : format_valid F -> 0 < p -> 0 < q ->
  round_pos F p q = Some (m, e) -> canon F m e = true.
Proof. intros HF Hp Hq H. exact (proj1 (round_pos_nearest F p q m e HF Hp Hq H)). Qed.

Lemma round_dec_canon F c j m e : format_valid F -> 0 < c -> round_dec F c j = Some (m, e) -> canon F m e = true.
Proof. intros HF Hc H. exact (proj1 (round_dec_nearest F c j m e HF Hc H)). Qed.

Lemma round_bin_canon F c k m e : format_valid F -> 0 < c -> round_bin F c k = Some (m, e) -> canon F m e = true.
Proof.
  intros HF Hc. unfold round_bin. destruct (Z.leb_spec 0 k) as [H|H]; apply round_pos_canon; try assumption.
  - pose proof (pow2_pos k H). nia.
  - lia.
  - apply pow2_pos. lia.
Qed.

Lemma canon_fzero F neg : format_valid F -> fl_ok F (fzero F neg) = true.
Proof.
  intros [H1 H2]. unfold fzero, fl_ok. apply canon_spec.
  pose proof (pow2_pos (prec F) ltac:(lia)). lia.
Qed.

Lemma hexdigit_val_nonneg c : is_hexdigit c = true -> 0 <= hexdigit_val c.
Proof.
  unfold is_hexdigit, hexdigit_val. destruct (is_digit c) eqn:E; intros H.
  - apply is_digit_val in E. lia.
  - apply andb_true_iff in H. lia.
Qed.

Lemma scan_mant_nonneg hex s : forall mant nfrac dot dig under a b c d r,
  0 <= mant -> scan_mant hex mant nfrac dot dig under s = (a, b, c, d, r) -> 0 <= a.
Proof.
  induction s as [|x s IH]; intros mant nfrac dot dig under a b c d r H; simpl.
  - intros [= <- _ _ _ _]. exact H.
  - destruct (beq x "_"%byte); [apply IH; exact H|].
    destruct (beq x "."%byte).
    + destruct dot; [intros [= <- _ _ _ _]; exact H|apply IH; exact H].
    + destruct (if hex then is_hexdigit x else is_digit x) eqn:E.
      * apply IH. assert (0 <= hexdigit_val x).
        { apply hexdigit_val_nonneg. destruct hex; [exact E|]. unfold is_hexdigit. rewrite E. reflexivity. }
        destruct hex; nia.
      * intros [= <- _ _ _ _]; exact H.
Qed.

Lemma read_float_nonneg s neg mant e hex : read_float s = Some (neg, mant, e, hex) -> 0 <= mant.
Proof.
  unfold read_float. destruct (strip_sign s) as [ng t]. destruct (strip_hex t) as [hx t'].
  destruct (scan_mant hx 0 0 false false false t') as [[[[a b] c] d] r] eqn:E.
  apply scan_mant_nonneg in E; [|lia].
  destruct c; cbn [negb]; [|discriminate].
  destruct r as [|x r].
  - destruct hx; [discriminate|]. destruct (_ && _); [discriminate|]. intros [= _ <- _ _]. exact E.
  - destruct (beq _ _); [|discriminate]. destruct (strip_sign r) as [en r''].
    destruct r'' as [|y r'']; [discriminate|]. destruct (is_digit y); [|discriminate].
    destruct (scan_exp 0 d (y :: r'')) as [[ee uu] rest]. destruct rest; [|discriminate].
    destruct (_ && _); [discriminate|]. intros [= _ <- _ _]. exact E.
Qed.

Lemma parse_float_ok F s f : format_valid F -> parse_float F s = Some f -> fl_ok F f = true.
Proof.
  intros HF. unfold parse_float. destruct (parse_special s) as [g|] eqn:ES.
  - intros [= ->]. unfold parse_special in ES. destruct s as [|c s]; [discriminate|].
    repeat match type of ES with context [if ?b then _ else _] => destruct b end;
      try discriminate; injection ES as <-; reflexivity.
  - destruct (read_float s) as [[[[neg mant] e] hex]|] eqn:ER; [|discriminate].
    apply read_float_nonneg in ER. destruct (Z.eqb_spec mant 0) as [->|Hm].
    + intros [= <-]. apply canon_fzero. exact HF.
    + destruct (if hex then round_bin F mant e else round_dec F mant e) as [[m e']|] eqn:E; [|discriminate].
      intros [= <-]. simpl. destruct hex; [eapply round_bin_canon|eapply round_dec_canon]; try eassumption; lia.
Qed.

Lemma bare_value_ok t v : bare_value t = Some v -> json_ok v.
Proof.
  unfold bare_value. destruct (_ && _).
  { destruct (parse_int _) eqn:E; [|discriminate]. intros [= <-]. constructor. eapply parse_int_range; exact E. }
  destruct (_ || _); [intros [= <-]; constructor|].
  destruct (_ || _); [intros [= <-]; constructor|].
  destruct (_ || _); [intros [= <-]; constructor|].
  destruct (parse_int t) eqn:E; [intros [= <-]; constructor; eapply parse_int_range; exact E|].
  destruct (parse_float F64 t) eqn:E2; intros [= <-]; constructor.
  eapply parse_float_ok; [exact F64_valid|exact E2].
Qed.

Lemma parse_scalar_ok s v r : parse_scalar s = POk v r -> json_ok v.
Proof.
  unfold parse_scalar. destruct (parse_string s) as [[t [|]] r'|e r'|p|]; try discriminate.
  - destruct t; intros [= <- _]; constructor.
  - destruct t; [discriminate|]. destruct (bare_value _) eqn:E; [|discriminate].
    intros [= <- _]. eapply bare_value_ok; exact E.
Qed.

Lemma Forall_sm_add (P : json -> Prop) m k v : Forall (fun kv => P (snd kv)) m -> P v ->
  Forall (fun kv : bytes * json => P (snd kv)) (sm_add m k v).
Proof.
  induction 1 as [|[k0 v0] m H HF IH]; intros Hv; simpl; [repeat constructor; exact Hv|].
  destruct (bcmp k k0); repeat constructor; auto.
Qed.

Lemma parse_ok n :
  (forall sess s v ss r, parse_value n sess s = POk (v, ss) r -> json_ok v)
  /\ (forall sess acc nid s kvs nid' ss r, dict_loop n sess acc nid s = POk (kvs, nid', ss) r ->
        sm_ok acc -> Forall (fun kv => json_ok (snd kv)) acc -> in_int64 nid = true ->
        sm_ok kvs /\ Forall (fun kv => json_ok (snd kv)) kvs /\ in_int64 nid' = true)
  /\ (forall sess acc s l ss r, array_loop n sess acc s = POk (l, ss) r ->
        Forall json_ok acc -> Forall json_ok l).
Proof.
  induction n as [|n (IHv & IHd & IHa)]; [repeat split; intros; discriminate|].
  split; [|split].
  - intros sess s v ss r. cbn [parse_value]. destruct s as [|a s]; [discriminate|].
    destruct (beq a "["%byte); [|destruct (beq a "{"%byte)].
    + destruct (array_loop n sess [] s) as [[l ss'] r'|e r'|p|] eqn:EL; try discriminate.
      intros [= <- _ _]. constructor. eapply IHa; [exact EL|constructor].
    + destruct (dict_loop n sess sm_empty 0 s) as [[[l nid] ss'] r'|e r'|p|] eqn:EL; try discriminate.
      destruct (IHd _ _ _ _ _ _ _ _ EL I (Forall_nil _) eq_refl) as (H1 & H2 & H3).
      intros H. assert (v = JDict nid l) as ->.
      { destruct (0 <? nid)%Z; [destruct (save_node ss' nid); [|discriminate]|]; injection H as <- _ _; reflexivity. }
      constructor; try assumption. apply keys_sorted_strong. exact H1.
    + destruct (parse_scalar (a :: s)) as [v' r'|e r'|p|] eqn:EP; try discriminate.
      intros [= <- _ _]. eapply parse_scalar_ok; exact EP.
  - intros sess acc nid s kvs nid' ss r H Hs Hf Hn. cbn [dict_loop] in H.
    destruct s as [|c0 s0]; [injection H as <- <- _ _; auto|].
    destruct (skip_empty (c0 :: s0)) as [|c s1]; [discriminate|].
    destruct (beq c "}"%byte); [injection H as <- <- _ _; auto|].
    destruct (parse_string (c :: s1)) as [[key b] s2|e rr|p|]; try discriminate.
    destruct (skip_empty s2) as [|c3 s3]; [discriminate|].
    destruct (negb (beq c3 ":"%byte)); [discriminate|].
    destruct (skip_empty s3) as [|c4 s4]; [discriminate|].
    destruct (parse_value n sess (c4 :: s4)) as [[v ss'] s5|e rr|p|] eqn:EV; try discriminate.
    apply IHv in EV.
    destruct (bseq key jnid_key).
    + destruct v; try discriminate.
      destruct (skip_empty s5) as [|c6 s6]; [discriminate|].
      assert (in_int64 z = true) by (inversion EV; assumption).
      destruct (beq c6 ","%byte); [eapply IHd; eassumption|].
      destruct (beq c6 "}"%byte); [injection H as <- <- _ _; auto|discriminate].
    + destruct (skip_empty s5) as [|c6 s6]; [discriminate|].
      pose proof (sm_add_ok acc key v Hs). pose proof (Forall_sm_add json_ok acc key v Hf EV).
      destruct (beq c6 ","%byte); [eapply IHd; eassumption|].
      destruct (beq c6 "}"%byte); [injection H as <- <- _ _; auto|discriminate].
  - intros sess acc s l ss r H Hf. cbn [array_loop] in H.
    destruct s as [|c0 s0]; [injection H as <- _ _; apply Forall_rev; exact Hf|].
    destruct (skip_empty (c0 :: s0)) as [|c s1]; [discriminate|].
    destruct (beq c "]"%byte); [injection H as <- _ _; apply Forall_rev; exact Hf|].
    destruct (parse_value n sess (c :: s1)) as [[v ss'] s5|e rr|p|] eqn:EV; try discriminate.
    apply IHv in EV. destruct (skip_empty s5) as [|c6 s6]; [discriminate|].
    destruct (beq c6 ","%byte); [eapply IHa; [exact H|constructor; assumption]|].
    destruct (beq c6 "]"%byte); [|discriminate].
    assert (l = rev (v :: acc)) as -> by (injection H as <- _ _; reflexivity).
    apply Forall_rev; constructor; assumption.
Qed.

(** ** Lifting to [parse_suffix] *)

Definition any_fuel (s : bytes) (sess : list Z) (x : pres (json * list Z)) : Prop :=
  exists n, parse_value n sess s = x /\ x <> PFuel.

Lemma parse_suffix_intro s n v ss r :
  skip_empty s <> [] -> parse_value n [] (skip_empty s) = POk (v, ss) r -> parse_suffix s = POk v r.
Proof.
  intros Hne H. unfold parse_suffix. destruct (skip_empty s) as [|c s1] eqn:E; [congruence|].
  set (N := Nat.max n (parse_fuel (c :: s1))).
  destruct (parse_good (parse_fuel (c :: s1))) as (G & _ & _).
  specialize (G [] (c :: s1) ltac:(discriminate) ltac:(unfold parse_fuel; simpl; lia)).
  destruct (parse_mono n N ltac:(lia)) as (M1 & _ & _).
  destruct (parse_mono (parse_fuel (c :: s1)) N ltac:(lia)) as (M2 & _ & _).
  rewrite <- M2.
  - rewrite M1; [rewrite H; reflexivity|]. rewrite H. discriminate.
  - intros C. rewrite C in G. exact G.
Qed.

Lemma parse_suffix_good s :
  match parse_suffix s with
  | POk _ r => ssuffix r s
  | PErr _ r => suffix r s
  | PPanic _ => True
  | PFuel => False
  end.
Proof.
  unfold parse_suffix. pose proof (skip_empty_suffix s) as HS.
  destruct (skip_empty s) as [|c s1]; [auto with suff|].
  destruct (parse_good (parse_fuel (c :: s1))) as (G & _ & _).
  specialize (G [] (c :: s1) ltac:(discriminate) ltac:(unfold parse_fuel; simpl; lia)).
  destruct (parse_value _ [] (c :: s1)) as [[v ss] r|e r|p|]; simpl in G; try contradiction; auto.
  - eapply ssuffix_trans_l; eassumption.
  - eapply suffix_trans; eassumption.
Qed.

Lemma parse_suffix_ok s v r : parse_suffix s = POk v r -> json_ok v.
Proof.
  unfold parse_suffix. destruct (skip_empty s) as [|c s1]; [discriminate|].
  destruct (parse_value _ [] (c :: s1)) as [[v' ss] r'|e r'|p|] eqn:E; try discriminate.
  intros [= <- _]. eapply (proj1 (parse_ok _)); exact E.
Qed.

Lemma parse_suffix_tail s v c r : parse_suffix s = POk v (c :: r) ->
  exists p, s = p ++ c :: r /\ (forall y, parse_suffix (p ++ c :: y) = POk v (c :: y))
    /\ (closed_value v -> forall y, parse_suffix (p ++ y) = POk v y).
Proof.
  unfold parse_suffix at 1. destruct (skip_empty_split s) as (w & Es & Hw).
  destruct (skip_empty s) as [|c1 s1] eqn:E; [discriminate|].
  pose proof (skip_empty_head _ _ _ E) as Hc1.
  destruct (parse_value _ [] (c1 :: s1)) as [[v' ss] r'|e r'|p|] eqn:EV; try discriminate.
  intros [= -> ->].
  destruct (parse_tail (parse_fuel (c1 :: s1))) as (T & _ & _).
  destruct (T _ _ _ _ _ _ EV) as (p & Ep & HY1 & HY2).
  assert (p <> []) as Hp.
  { intros ->. simpl in Ep. destruct (parse_good (parse_fuel (c1 :: s1))) as (G & _ & _).
    specialize (G [] (c1 :: s1) ltac:(discriminate) ltac:(unfold parse_fuel; simpl; lia)).
    rewrite EV in G. simpl in G. apply ssuffix_length in G. rewrite Ep in G. lia. }
  destruct p as [|p0 p]; [congruence|]. injection Ep as <- Ep.
  exists (w ++ c1 :: p). split; [rewrite Es, Ep, <- app_assoc; reflexivity|].
  split.
  - intros y. rewrite <- app_assoc. eapply parse_suffix_intro.
    + cbn [app]. rewrite skip_empty_app by assumption. discriminate.
    + cbn [app]. rewrite skip_empty_app by assumption. apply HY1.
  - intros Hcl y. rewrite <- app_assoc. eapply parse_suffix_intro.
    + cbn [app]. rewrite skip_empty_app by assumption. discriminate.
    + cbn [app]. rewrite skip_empty_app by assumption. apply HY2. exact Hcl.
Qed.
