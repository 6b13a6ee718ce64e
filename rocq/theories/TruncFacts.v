(** Prefixes of container texts. *)
From Verif Require Import Base Strconv StrconvFacts SortedMap SortedMapFacts
  Utf8 Json SpecJson SpecRFC SpecText SpecPrint Printer Parser ParserFacts ParserFacts2 Gram RfcFacts PrintFacts PrintFacts2 TextFacts.
Open Scope Z_scope.

(** A prefix of a ++ b is a prefix of a or extends a. *)
Lemma app_cut {A} (a b p q : list A) : a ++ b = p ++ q ->
  (exists a2, a2 <> [] /\ a = p ++ a2 /\ q = a2 ++ b) \/ (exists p2, p = a ++ p2 /\ b = p2 ++ q).
Proof.
  revert p; induction a as [|x a IH]; intros p E.
  - right. exists p. auto.
  - destruct p as [|y p].
    + left. exists (x :: a). cbn in *. split; [discriminate|]. auto.
    + cbn [app] in E. injection E as <- E. destruct (IH p E) as [(a2 & N & -> & ->)|(p2 & -> & ->)].
      * left. exists a2. auto.
      * right. exists p2. auto.
Qed.

Lemma wsp_prefix a b : wsp (a ++ b) -> wsp a.
Proof. intros H. apply Forall_app in H. tauto. Qed.

Definition cut_res {A} (r : pres A) : Prop :=
  match r with PErr _ _ => True | POk _ r => r = [] | _ => False end.
Arguments cut_res {A} !r.

Lemma scalar_cut_tok p : p <> [] -> Forall (fun c => is_delim c = false) p -> opener (hd x00 p) = false ->
  forall n sess, (1 <= n)%nat -> cut_res (parse_value n sess p).
Proof.
  intros Hne Hd Ho n sess Hn. destruct n as [|n]; [lia|]. destruct p as [|c p]; [congruence|].
  cbn [hd] in Ho. unfold opener in Ho. cbn [parse_value].
  destruct (beq c """"%byte) eqn:E1; [discriminate|]. destruct (beq c "'"%byte) eqn:E2; [discriminate|].
  destruct (beq c "["%byte); [discriminate|]. destruct (beq c "{"%byte); [discriminate|].
  unfold parse_scalar, parse_string. rewrite E1, E2. cbn [orb].
  rewrite (bare_token_end (c :: p) Hd). destruct (bare_value (c :: p)); reflexivity || exact I.
Qed.

Lemma scalar_cut_quoted t s p q : quoted_ok t s -> t = p ++ q -> p <> [] -> q <> [] ->
  forall n sess, (1 <= n)%nat -> cut_res (parse_value n sess p).
Proof.
  intros HQ E Hp Hq n sess Hn. destruct n as [|n]; [lia|].
  destruct HQ as (qc & body & Hqc & Et & HP). rewrite Et in E.
  destruct p as [|c p]; [congruence|]. cbn [app] in E. injection E as <- E.
  cbn [parse_value].
  assert (beq qc "["%byte = false /\ beq qc "{"%byte = false /\ (beq qc """"%byte || beq qc "'"%byte = true))
    as (-> & -> & E3) by (destruct Hqc as [-> | ->]; repeat split; reflexivity).
  unfold parse_scalar, parse_string. rewrite E3.
  pose proof (parse_quoted_suffix qc (length p) p [] (le_n _)) as PS.
  destruct (parse_quoted qc [] p) as [t' r|e r|pp|] eqn:EP; try exact I; try contradiction.
  destruct r as [|c r]; [destruct t'; reflexivity|exfalso].
  apply (parse_quoted_tail qc (length p)) in EP; [|lia|discriminate].
  destruct EP as (p0 & -> & HT). specialize (HP [] []). rewrite E, <- app_assoc in HP.
  rewrite HT in HP. injection HP as _ C. destruct r; discriminate.
Qed.

(** Every prefix token of an RFC number has no delimiter. *)
Lemma tok_prefix t v p q : tok_ok t v -> t = p ++ q -> p <> [] ->
  Forall (fun c => is_delim c = false) p /\ opener (hd x00 p) = false.
Proof.
  intros (Hne & Hd & Ho & _) -> Hp. split; [apply Forall_app in Hd; tauto|].
  destruct p as [|c p]; [congruence|]. exact Ho.
Qed.

Notation K := not_reserved.

Lemma rfc_head t v : rfc_value K t v -> exists c r, t = c :: r /\ starter c.
Proof.
  intros H. destruct (proj1 rfc_gram t v H) as [b G]. eapply gval_head. exact G.
Qed.

(** rfc texts have no node ids, so the session must only be duplicate free;
    the top-level session is empty. *)
Lemma rfc_parse_ctx t v : rfc_value K t v -> exists N, forall n rest, (N <= n)%nat ->
  rest_ok rest -> parse_value n [] (t ++ rest) = POk (v, []) rest.
Proof.
  intros H. destruct (proj1 rfc_gram t v H) as [b G]. destruct (proj1 gram_parse _ _ _ _ G) as [N HN].
  exists N. intros n rest Hn Hr. apply (HN n [] rest Hn); [constructor|auto].
Qed.

Lemma skip_wsp w : wsp w -> skip_empty w = [].
Proof. apply skip_empty_all. Qed.

Lemma rest_ok_wsp w : wsp w -> rest_ok w.
Proof.
  intros [|c w' Hc _]; [exact I|]. cbn. unfold is_ws in Hc. unfold is_delim.
  destruct (beq c " "%byte), (beq c x09), (beq c x0a), (beq c x0d); simpl in *; try discriminate;
    rewrite ?orb_true_r; reflexivity.
Qed.

Definition arr_cut (acc : list json) (p : bytes) (r : pres (list json * list Z)) : Prop :=
  (exists e s, r = PErr e s) \/ (exists l, open_elements K p l /\ r = POk (rev acc ++ l, []) []).

Definition dict_cut (acc : smap json) (p : bytes) (r : pres (smap json * Z * list Z)) : Prop :=
  (exists e s, r = PErr e s) \/ (exists ms, open_members K p ms /\ r = POk (sm_of_list ms acc, 0, []) []).

(** A white-space prefix, in an array or dict. *)
Lemma arr_ws n acc p : (1 <= n)%nat -> wsp p -> arr_cut acc p (array_loop n [] acc p).
Proof.
  intros Hn Hw. destruct n as [|n]; [lia|]. destruct p as [|a p].
  - right. exists []. split; [constructor|]. cbn. rewrite app_nil_r. reflexivity.
  - left. cbn [array_loop]. rewrite skip_wsp by exact Hw. eauto.
Qed.

Lemma dict_ws n acc p : (1 <= n)%nat -> wsp p -> dict_cut acc p (dict_loop n [] acc 0 p).
Proof.
  intros Hn Hw. destruct n as [|n]; [lia|]. destruct p as [|a p].
  - right. exists []. split; [constructor|]. reflexivity.
  - left. cbn [dict_loop]. rewrite skip_wsp by exact Hw. eauto.
Qed.

(** A cut inside the first element. *)
Lemma arr_in_value n acc w1 t p2 : (1 <= n)%nat -> wsp w1 -> p2 <> [] -> starter (hd x00 t) ->
  hd x00 t = hd x00 p2 -> cut_res (parse_value n [] p2) ->
  exists e s, array_loop (S n) [] acc (w1 ++ p2) = PErr e s.
Proof.
  intros Hn Hw Hp (S1 & S2 & S3) Eh HC. destruct p2 as [|c p2]; [congruence|]. cbn [hd] in Eh. rewrite Eh in *.
  cbn [array_loop].
  assert (exists a x, w1 ++ c :: p2 = a :: x) as (a & x & E) by (destruct w1; cbn [app]; eauto).
  rewrite E, <- E. rewrite skip_ws_head by assumption. rewrite S2.
  destruct (parse_value n [] (c :: p2)) as [[v ss] r|e r|pp|]; try contradiction; [|eauto].
  cbn in HC. subst r. cbn [skip_empty]. eauto.
Qed.

Lemma hd_prefix {A} (d : A) t p q : t = p ++ q -> p <> [] -> hd d t = hd d p.
Proof. intros -> H. destruct p; [congruence|reflexivity]. Qed.

Lemma arr_step n acc w1 t w2 v p : wsp w1 -> wsp w2 -> starter (hd x00 t) -> t <> [] ->
  (forall rest, rest_ok rest -> parse_value n [] (t ++ rest) = POk (v, []) rest) ->
  array_loop (S n) [] acc (w1 ++ t ++ w2 ++ ","%byte :: p) = array_loop n [] (v :: acc) p.
Proof.
  intros Hw1 Hw2 (S1 & S2 & _) Ht HP. destruct t as [|c t]; [congruence|]. cbn [hd] in *. cbn [array_loop].
  assert (exists a x, w1 ++ (c :: t) ++ w2 ++ ","%byte :: p = a :: x) as (a & x & E) by (destruct w1; cbn [app]; eauto).
  rewrite E, <- E. cbn [app]. rewrite skip_ws_head by assumption. rewrite S2.
  specialize (HP (w2 ++ ","%byte :: p) (rest_ok_ws w2 ","%byte p Hw2 eq_refl)). cbn [app] in HP. rewrite HP.
  rewrite skip_ws_head by (assumption || reflexivity). change (beq ","%byte ","%byte) with true. reflexivity.
Qed.

Lemma arr_behind n acc w1 t v p : wsp w1 -> wsp p -> starter (hd x00 t) -> t <> [] ->
  (forall rest, rest_ok rest -> parse_value n [] (t ++ rest) = POk (v, []) rest) ->
  exists e s, array_loop (S n) [] acc (w1 ++ t ++ p) = PErr e s.
Proof.
  intros Hw1 Hw2 (S1 & S2 & _) Ht HP. destruct t as [|c t]; [congruence|]. cbn [hd] in *. cbn [array_loop].
  assert (exists a x, w1 ++ (c :: t) ++ p = a :: x) as (a & x & E) by (destruct w1; cbn [app]; eauto).
  rewrite E, <- E. cbn [app]. rewrite skip_ws_head by assumption. rewrite S2.
  specialize (HP p (rest_ok_wsp _ Hw2)). cbn [app] in HP. rewrite HP.
  rewrite skip_wsp by exact Hw2. eauto.
Qed.

(** The result of a whole member text followed by a prefix of what may follow. *)
Lemma parse_string_cut_err kt k p2 q : quoted_ok kt k -> kt = p2 ++ q -> p2 <> [] -> q <> [] ->
  match parse_string p2 with PErr _ _ => True | POk _ r => r = [] | _ => False end.
Proof.
  intros HQ E Hp Hq. destruct HQ as (qc & body & Hqc & Et & HP). rewrite Et in E.
  destruct p2 as [|c p]; [congruence|]. cbn [app] in E. injection E as <- E.
  assert (beq qc """"%byte || beq qc "'"%byte = true) as E3 by (destruct Hqc as [-> | ->]; reflexivity).
  unfold parse_string. rewrite E3.
  pose proof (parse_quoted_suffix qc (length p) p [] (le_n _)) as PS.
  destruct (parse_quoted qc [] p) as [t' r|e r|pp|] eqn:EP; try exact I; try contradiction.
  destruct r as [|c r]; [reflexivity|exfalso].
  apply (parse_quoted_tail qc (length p)) in EP; [|lia|discriminate].
  destruct EP as (p0 & -> & HT). specialize (HP [] []). rewrite E, <- app_assoc in HP.
  rewrite HT in HP. injection HP as _ C. destruct r; discriminate.
Qed.

(** dict_loop up to the value. *)
Definition dict_after (n : nat) (acc : smap json) (key : bytes) (s3 : bytes) : pres (smap json * Z * list Z) :=
  match skip_empty s3 with
  | [] => PErr ETruncated []
  | c4 :: s4 =>
    match parse_value n [] (c4 :: s4) with
    | PErr e r => PErr e r
    | PPanic p => PPanic p
    | PFuel => PFuel
    | POk (v, sess') s5 =>
      match skip_empty s5 with
      | [] => PErr ETruncated []
      | c6 :: s6 =>
        if beq c6 ","%byte then dict_loop n sess' (sm_add acc key v) 0 s6
        else if beq c6 "}"%byte then POk (sm_add acc key v, 0, sess') s6
        else PErr EUnexpectedChar (c6 :: s6)
      end
    end
  end.

Lemma dict_key n acc w1 kt k w2 s3 : wsp w1 -> quoted_ok kt k -> k <> jnid_key -> wsp w2 ->
  dict_loop (S n) [] acc 0 (w1 ++ kt ++ w2 ++ ":"%byte :: s3) = dict_after n acc k s3.
Proof.
  intros Hw1 HQ HK Hw2. destruct (quoted_head _ _ HQ) as (qc & kr & Ek & Hq).
  pose proof (parse_string_quoted kt k (w2 ++ ":"%byte :: s3) HQ) as PS.
  assert (is_ws qc = false /\ beq qc "}"%byte = false) as [Hq1 Hq2] by (destruct Hq as [-> | ->]; split; reflexivity).
  cbn [dict_loop]. rewrite Ek in *. cbn [app] in *.
  assert (exists a x, w1 ++ qc :: kr ++ w2 ++ ":"%byte :: s3 = a :: x) as (a & x & E) by (destruct w1; cbn [app]; eauto).
  rewrite E, <- E. rewrite skip_ws_head by assumption. rewrite Hq2, PS.
  rewrite skip_ws_head by (assumption || reflexivity). change (beq ":"%byte ":"%byte) with true. cbn [negb].
  unfold dict_after. destruct (skip_empty s3) as [|c4 s4]; [reflexivity|].
  destruct (parse_value n [] (c4 :: s4)) as [[v ss] r|e r|pp|]; try reflexivity.
  destruct (bseq_spec k jnid_key) as [C|_]; [contradiction|]. reflexivity.
Qed.

(** Cuts before the colon. *)
Lemma dict_cut_key n acc w1 kt k p q : wsp w1 -> quoted_ok kt k -> kt = p ++ q -> p <> [] -> q <> [] ->
  exists e s, dict_loop (S n) [] acc 0 (w1 ++ p) = PErr e s.
Proof.
  intros Hw1 HQ E Hp Hq. pose proof (parse_string_cut_err kt k p q HQ E Hp Hq) as PS.
  destruct (quoted_head _ _ HQ) as (qc & kr & Ek & Hqc).
  assert (is_ws qc = false /\ beq qc "}"%byte = false) as [Hq1 Hq2] by (destruct Hqc as [-> | ->]; split; reflexivity).
  destruct p as [|c p]; [congruence|]. rewrite Ek in E. cbn [app] in E. injection E as <- E.
  cbn [dict_loop].
  assert (exists a x, w1 ++ qc :: p = a :: x) as (a & x & E1) by (destruct w1; cbn [app]; eauto).
  rewrite E1, <- E1. rewrite skip_ws_head by assumption. rewrite Hq2.
  destruct (parse_string (qc :: p)) as [[t b] r|e r|pp|]; try contradiction; [|eauto].
  subst r. cbn [skip_empty]. eauto.
Qed.

Lemma dict_cut_colon n acc w1 kt k w2 : wsp w1 -> quoted_ok kt k -> wsp w2 ->
  exists e s, dict_loop (S n) [] acc 0 (w1 ++ kt ++ w2) = PErr e s.
Proof.
  intros Hw1 HQ Hw2. pose proof (parse_string_quoted kt k w2 HQ) as PS.
  destruct (quoted_head _ _ HQ) as (qc & kr & Ek & Hqc).
  assert (is_ws qc = false /\ beq qc "}"%byte = false) as [Hq1 Hq2] by (destruct Hqc as [-> | ->]; split; reflexivity).
  rewrite Ek in *. cbn [app] in *. cbn [dict_loop].
  assert (exists a x, w1 ++ qc :: kr ++ w2 = a :: x) as (a & x & E1) by (destruct w1; cbn [app]; eauto).
  rewrite E1, <- E1. rewrite skip_ws_head by assumption. rewrite Hq2, PS.
  rewrite skip_wsp by assumption. eauto.
Qed.

Lemma after_ws n acc k w : wsp w -> exists e s, dict_after n acc k w = PErr e s.
Proof. intros H. unfold dict_after. rewrite skip_wsp by exact H. eauto. Qed.

Lemma after_in_value n acc k w3 t p q : wsp w3 -> t = p ++ q -> p <> [] -> starter (hd x00 t) ->
  cut_res (parse_value n [] p) -> exists e s, dict_after n acc k (w3 ++ p) = PErr e s.
Proof.
  intros Hw E Hp (S1 & _) HC. destruct p as [|c p]; [congruence|]. rewrite E in S1. cbn [app hd] in S1.
  unfold dict_after. rewrite skip_ws_head by assumption.
  destruct (parse_value n [] (c :: p)) as [[v ss] r|e r|pp|]; try contradiction; [|eauto].
  cbn in HC. subst r. cbn [skip_empty]. eauto.
Qed.

Lemma after_behind n acc k w3 t v p : wsp w3 -> wsp p -> starter (hd x00 t) -> t <> [] ->
  (forall rest, rest_ok rest -> parse_value n [] (t ++ rest) = POk (v, []) rest) ->
  exists e s, dict_after n acc k (w3 ++ t ++ p) = PErr e s.
Proof.
  intros Hw Hp (S1 & _) Ht HP. destruct t as [|c t]; [congruence|]. cbn [hd] in *. unfold dict_after. cbn [app].
  rewrite skip_ws_head by assumption. specialize (HP p (rest_ok_wsp _ Hp)). cbn [app] in HP. rewrite HP.
  rewrite skip_wsp by assumption. eauto.
Qed.

Lemma after_step n acc k w3 t v w4 p : wsp w3 -> wsp w4 -> starter (hd x00 t) -> t <> [] ->
  (forall rest, rest_ok rest -> parse_value n [] (t ++ rest) = POk (v, []) rest) ->
  dict_after n acc k (w3 ++ t ++ w4 ++ ","%byte :: p) = dict_loop n [] (sm_add acc k v) 0 p.
Proof.
  intros Hw Hw4 (S1 & _) Ht HP. destruct t as [|c t]; [congruence|]. cbn [hd] in *. unfold dict_after. cbn [app].
  rewrite skip_ws_head by assumption.
  specialize (HP (w4 ++ ","%byte :: p) (rest_ok_ws w4 ","%byte p Hw4 eq_refl)). cbn [app] in HP. rewrite HP.
  rewrite skip_ws_head by (assumption || reflexivity). reflexivity.
Qed.

(** What is known about a member text: it never panics when cut, and it is
    swallowed whole when a comma follows. *)
Definition member_spec (t : bytes) (m : bytes * json) : Prop :=
  exists N, forall n acc, (N <= n)%nat ->
    (forall p q, t = p ++ q -> (p = [] -> False) -> exists e s, dict_loop n [] acc 0 p = PErr e s)
    /\ (forall p, dict_loop n [] acc 0 (t ++ ","%byte :: p) = dict_loop (pred n) [] (sm_add acc (fst m) (snd m)) 0 p).

Lemma open_elements_app p2 w1 t w2 v l : rfc_ws w1 -> rfc_value K t v -> rfc_ws w2 -> open_elements K p2 l ->
  open_elements K (w1 ++ t ++ w2 ++ ","%byte :: p2) (v :: l).
Proof. intros. apply oe_cons; assumption. Qed.

Lemma cut_number t neg c j whole v : rfc_number t neg c j whole -> number_value neg c j whole v ->
  forall p q, t = p ++ q -> p <> [] -> forall n sess, (1 <= n)%nat -> cut_res (parse_value n sess p).
Proof.
  intros H1 H2 p q E Hp n sess Hn. pose proof (rfc_number_tok t neg c j whole v H1 H2) as T.
  destruct (tok_prefix t v p q T E Hp) as [D O]. apply scalar_cut_tok; assumption.
Qed.

Lemma starter_hd t v : rfc_value K t v -> starter (hd x00 t) /\ t <> [].
Proof. intros H. destruct (rfc_head t v H) as (c & r & -> & S). split; [exact S|discriminate]. Qed.

Ltac kw p q E Hp := apply scalar_cut_tok; [exact Hp| | |lia];
  [assert (Forall (fun c => is_delim c = false) (p ++ q)) as FD by (rewrite <- E; repeat constructor);
   apply Forall_app in FD; tauto
  |destruct p; [congruence|]; cbn [app] in E; injection E as <- _; reflexivity].

Theorem cut_all :
  (forall t v, rfc_value K t v -> exists N, forall p q n, t = p ++ q -> p <> [] -> q <> [] -> (N <= n)%nat ->
     cut_res (parse_value n [] p))
  /\ (forall t l, rfc_elements K t l -> exists N, forall p q n acc, t = p ++ q -> (N <= n)%nat ->
        arr_cut acc p (array_loop n [] acc p))
  /\ (forall t ms, rfc_members K t ms -> exists N, forall p q n acc, t = p ++ q -> (N <= n)%nat ->
        dict_cut acc p (dict_loop n [] acc 0 p))
  /\ (forall t m, rfc_member K t m -> member_spec t m).
Proof.
  apply rfc_ind.
  - exists 1%nat. intros p q n E Hp Hq Hn. kw p q E Hp.
  - exists 1%nat. intros p q n E Hp Hq Hn. kw p q E Hp.
  - exists 1%nat. intros p q n E Hp Hq Hn. kw p q E Hp.
  - intros t neg c j whole v H1 H2. exists 1%nat. intros p q n E Hp Hq Hn.
    eapply cut_number; eassumption.
  - intros t s H. exists 1%nat. intros p q n E Hp Hq Hn.
    eapply scalar_cut_quoted; try eassumption. apply rfc_string_quoted. exact H.
  - (* empty array *)
    intros w Hw. exists 2%nat. intros p q n E Hp Hq Hn. destruct p as [|c p]; [congruence|].
    cbn [app] in E. injection E as <- E. destruct n as [|n]; [lia|].
    cbn [parse_value]. change (beq "["%byte "["%byte) with true. cbv iota.
    destruct (app_cut w ["]"%byte] p q E) as [(a2 & _ & -> & _)|(p2 & -> & E2)].
    + apply rfc_ws_wsp, wsp_prefix in Hw.
      destruct (arr_ws n [] p ltac:(lia) Hw) as [(e & s & ->)|(l & _ & ->)]; [exact I|reflexivity].
    + destruct p2 as [|c p2]; [|cbn [app] in E2; injection E2 as <- E2; destruct p2; [|discriminate]; cbn in E2; subst q; congruence].
      rewrite app_nil_r. apply rfc_ws_wsp in Hw.
      destruct (arr_ws n [] w ltac:(lia) Hw) as [(e & s & ->)|(l & _ & ->)]; [exact I|reflexivity].
  - (* array *)
    intros t l _ [N IH]. exists (S N). intros p q n E Hp Hq Hn. destruct p as [|c p]; [congruence|].
    cbn [app] in E. injection E as <- E. destruct n as [|n]; [lia|].
    cbn [parse_value]. change (beq "["%byte "["%byte) with true. cbv iota.
    assert (exists q', t = p ++ q') as [q' Eq].
    { destruct (app_cut t ["]"%byte] p q E) as [(a2 & _ & -> & _)|(p2 & -> & E2)]; [eauto|].
      destruct p2 as [|c p2]; [|cbn [app] in E2; injection E2 as <- E2; destruct p2; [|discriminate]; cbn in E2; subst q; congruence].
      exists []. rewrite !app_nil_r. reflexivity. }
    destruct (IH p q' n [] Eq ltac:(lia)) as [(e & s & ->)|(l' & _ & ->)]; [exact I|reflexivity].
  - (* empty object *)
    intros w Hw. exists 2%nat. intros p q n E Hp Hq Hn. destruct p as [|c p]; [congruence|].
    cbn [app] in E. injection E as <- E. destruct n as [|n]; [lia|].
    cbn [parse_value]. change (beq "{"%byte "["%byte) with false. change (beq "{"%byte "{"%byte) with true. cbv iota.
    assert (wsp p) as Hwp.
    { apply rfc_ws_wsp in Hw. destruct (app_cut w ["}"%byte] p q E) as [(a2 & _ & -> & _)|(p2 & -> & E2)].
      - eapply wsp_prefix; exact Hw.
      - destruct p2 as [|c p2]; [|cbn [app] in E2; injection E2 as <- E2; destruct p2; [|discriminate]; cbn in E2; subst q; congruence].
        rewrite app_nil_r. exact Hw. }
    destruct (dict_ws n sm_empty p ltac:(lia) Hwp) as [(e & s & ->)|(l & _ & ->)]; [exact I|reflexivity].
  - (* object *)
    intros t ms kvs _ [N IH] _. exists (S N). intros p q n E Hp Hq Hn. destruct p as [|c p]; [congruence|].
    cbn [app] in E. injection E as <- E. destruct n as [|n]; [lia|].
    cbn [parse_value]. change (beq "{"%byte "["%byte) with false. change (beq "{"%byte "{"%byte) with true. cbv iota.
    assert (exists q', t = p ++ q') as [q' Eq].
    { destruct (app_cut t ["}"%byte] p q E) as [(a2 & _ & -> & _)|(p2 & -> & E2)]; [eauto|].
      destruct p2 as [|c p2]; [|cbn [app] in E2; injection E2 as <- E2; destruct p2; [|discriminate]; cbn in E2; subst q; congruence].
      exists []. rewrite !app_nil_r. reflexivity. }
    destruct (IH p q' n sm_empty Eq ltac:(lia)) as [(e & s & ->)|(l' & _ & ->)]; [exact I|reflexivity].
  - (* one element *)
    intros w1 t w2 v H1 HV [N IH] H2. destruct (rfc_parse_ctx t v HV) as [N' HP].
    destruct (starter_hd t v HV) as [HS Hne].
    exists (S (S (N + N'))). intros p q n acc E Hn. destruct n as [|n]; [lia|].
    assert (forall rest, rest_ok rest -> parse_value n [] (t ++ rest) = POk (v, []) rest) as HP'
      by (intros; apply HP; [lia|assumption]).
    apply rfc_ws_wsp in H1. apply rfc_ws_wsp in H2.
    destruct (app_cut w1 (t ++ w2) p q E) as [(a2 & _ & -> & _)|(p2 & -> & E2)].
    + apply arr_ws; [lia|]. eapply wsp_prefix; exact H1.
    + destruct (app_cut t w2 p2 q E2) as [(a3 & Ha3 & Et & _)|(p3 & -> & E3)].
      * destruct p2 as [|c p2]; [rewrite app_nil_r; apply arr_ws; [lia|exact H1]|].
        left. apply (arr_in_value n acc w1 t (c :: p2)); try assumption; try discriminate; try lia.
        -- apply (hd_prefix x00 t (c :: p2) a3 Et). discriminate.
        -- apply (IH (c :: p2) a3 n Et); [discriminate|exact Ha3|lia].
      * left. apply (arr_behind n acc w1 t v p3); try assumption. rewrite E3 in H2. eapply wsp_prefix; exact H2.
  - (* more elements *)
    intros w1 t w2 v t' l H1 HV [N IH] H2 HE [N2 IH2]. destruct (rfc_parse_ctx t v HV) as [N' HP].
    destruct (starter_hd t v HV) as [HS Hne].
    exists (S (S (N + N' + N2))). intros p q n acc E Hn. destruct n as [|n]; [lia|].
    assert (forall rest, rest_ok rest -> parse_value n [] (t ++ rest) = POk (v, []) rest) as HP'
      by (intros; apply HP; [lia|assumption]).
    pose proof H1 as H1'. pose proof H2 as H2'. apply rfc_ws_wsp in H1. apply rfc_ws_wsp in H2.
    destruct (app_cut w1 _ p q E) as [(a2 & _ & -> & _)|(p2 & -> & E2)].
    + apply arr_ws; [lia|]. eapply wsp_prefix; exact H1.
    + destruct (app_cut t _ p2 q E2) as [(a3 & Ha3 & Et & _)|(p3 & -> & E3)].
      * destruct p2 as [|c p2]; [rewrite app_nil_r; apply arr_ws; [lia|exact H1]|].
        left. apply (arr_in_value n acc w1 t (c :: p2)); try assumption; try discriminate; try lia.
        -- apply (hd_prefix x00 t (c :: p2) a3 Et). discriminate.
        -- apply (IH (c :: p2) a3 n Et); [discriminate|exact Ha3|lia].
      * destruct (app_cut w2 _ p3 q E3) as [(a4 & _ & -> & _)|(p4 & -> & E4)].
        -- left. apply (arr_behind n acc w1 t v p3); try assumption. eapply wsp_prefix; exact H2.
        -- destruct p4 as [|c p4].
           ++ left. rewrite app_nil_r. apply (arr_behind n acc w1 t v w2); assumption.
           ++ cbn [app] in E4. injection E4 as <- E4.
              rewrite (arr_step n acc w1 t w2 v p4) by assumption.
              destruct (IH2 p4 q n (v :: acc) E4 ltac:(lia)) as [(e & s & ->)|(l' & OE & ->)]; [left; eauto|].
              right. exists (v :: l'). split; [apply oe_cons; assumption|].
              cbn [rev]. rewrite <- app_assoc. reflexivity.
  - (* one member *)
    intros t m HM [N HS]. exists (S N). intros p q n acc E Hn.
    destruct p as [|c p]; [apply dict_ws; [lia|constructor]|].
    left. apply (proj1 (HS n acc ltac:(lia)) (c :: p) q E). discriminate.
  - (* more members *)
    intros t m t' ms HM [N HS] HE [N2 IH2]. exists (S (N + N2)). intros p q n acc E Hn.
    destruct p as [|c p]; [apply dict_ws; [lia|constructor]|].
    destruct (app_cut t _ (c :: p) q E) as [(a2 & _ & Et & _)|(p2 & Ep & E2)].
    + left. apply (proj1 (HS n acc ltac:(lia)) (c :: p) a2 Et). discriminate.
    + rewrite Ep. destruct p2 as [|c2 p2].
      * left. apply (proj1 (HS n acc ltac:(lia)) (t ++ []) []); [rewrite !app_nil_r; reflexivity|].
        rewrite <- Ep. discriminate.
      * cbn [app] in E2. injection E2 as <- E2.
        rewrite (proj2 (HS n acc ltac:(lia)) p2).
        destruct (IH2 p2 q (pred n) (sm_add acc (fst m) (snd m)) E2 ltac:(lia)) as [(e & s & ->)|(ms' & OM & ->)];
          [left; eauto|].
        right. exists (m :: ms'). split; [apply om_cons; assumption|]. destruct m; reflexivity.
  - (* a member *)
    intros w1 kt k w2 w3 t w4 v H1 HK0 HK H2 H3 HV [N IH] H4. destruct (rfc_parse_ctx t v HV) as [N' HP].
    destruct (starter_hd t v HV) as [HS Hne]. apply rfc_string_quoted in HK0.
    apply rfc_ws_wsp in H1. apply rfc_ws_wsp in H2. apply rfc_ws_wsp in H3. apply rfc_ws_wsp in H4.
    exists (S (S (N + N'))). intros n acc Hn. destruct n as [|n]; [lia|].
    assert (forall rest, rest_ok rest -> parse_value n [] (t ++ rest) = POk (v, []) rest) as HP'
      by (intros; apply HP; [lia|assumption]).
    assert (forall p, wsp p -> (p = [] -> False) -> exists e s, dict_loop (S n) [] acc 0 p = PErr e s) as WS.
    { intros p Hw Hp. destruct p as [|a p]; [exfalso; apply Hp; reflexivity|]. cbn [dict_loop].
      rewrite skip_wsp by exact Hw. eauto. }
    split.
    + intros p q E Hp.
      destruct (app_cut w1 _ p q E) as [(a2 & _ & -> & _)|(p2 & -> & E2)];
        [apply WS; [eapply wsp_prefix; exact H1|exact Hp]|].
      destruct (app_cut kt _ p2 q E2) as [(a3 & Ha3 & Et & _)|(p3 & -> & E3)].
      { destruct p2 as [|c p2]; [rewrite app_nil_r in *; apply WS; assumption|].
        apply (dict_cut_key n acc w1 kt k (c :: p2) a3); try assumption. discriminate. }
      destruct (app_cut w2 _ p3 q E3) as [(a4 & _ & -> & _)|(p4 & -> & E4)].
      { apply (dict_cut_colon n acc w1 kt k p3); try assumption. eapply wsp_prefix; exact H2. }
      destruct p4 as [|c p4].
      { rewrite app_nil_r. apply (dict_cut_colon n acc w1 kt k w2); assumption. }
      cbn [app] in E4. injection E4 as <- E4. rewrite (dict_key n acc w1 kt k w2 p4) by assumption.
      destruct (app_cut w3 _ p4 q E4) as [(a5 & _ & -> & _)|(p5 & -> & E5)];
        [apply after_ws; eapply wsp_prefix; exact H3|].
      destruct (app_cut t _ p5 q E5) as [(a6 & Ha6 & Et & _)|(p6 & -> & E6)].
      { destruct p5 as [|c p5]; [rewrite app_nil_r; apply after_ws; assumption|].
        apply (after_in_value n acc k w3 t (c :: p5) a6); try assumption; [discriminate|].
        apply (IH (c :: p5) a6 n Et); [discriminate|exact Ha6|lia]. }
      apply (after_behind n acc k w3 t v p6); try assumption. rewrite E6 in H4. eapply wsp_prefix; exact H4.
    + intros p. cbn [fst snd pred].
      replace ((w1 ++ kt ++ w2 ++ [":"%byte] ++ w3 ++ t ++ w4) ++ ","%byte :: p)
        with (w1 ++ kt ++ w2 ++ ":"%byte :: (w3 ++ t ++ w4 ++ ","%byte :: p))
        by (rewrite <- !app_assoc; reflexivity).
      rewrite (dict_key n acc w1 kt k w2) by assumption.
      apply after_step; assumption.
Qed.

(** Texts that are left open after a comma are accepted. *)
Lemma open_elements_accepted t l : open_elements K t l -> exists N, forall n acc, (N <= n)%nat ->
  array_loop n [] acc t = POk (rev acc ++ l, []) [].
Proof.
  induction 1 as [|w1 t w2 v t' l H1 HV H2 _ [N IH]].
  - exists 1%nat. intros n acc Hn. destruct n; [lia|]. cbn. rewrite app_nil_r. reflexivity.
  - destruct (rfc_parse_ctx t v HV) as [N' HP]. destruct (starter_hd t v HV) as [HS Hne].
    exists (S (N + N')). intros n acc Hn. destruct n as [|n]; [lia|].
    change ([","%byte] ++ t') with (","%byte :: t').
    rewrite (arr_step n acc w1 t w2 v t'); auto using rfc_ws_wsp.
    + rewrite IH by lia. cbn [rev]. rewrite <- app_assoc. reflexivity.
    + intros. apply HP; [lia|assumption].
Qed.

Lemma open_members_accepted t ms : open_members K t ms -> exists N, forall n acc, (N <= n)%nat ->
  dict_loop n [] acc 0 t = POk (sm_of_list ms acc, 0, []) [].
Proof.
  induction 1 as [|t m t' ms HM _ [N IH]].
  - exists 1%nat. intros n acc Hn. destruct n; [lia|]. reflexivity.
  - destruct (proj2 (proj2 (proj2 cut_all)) t m HM) as [N' HS].
    exists (S (N + N')). intros n acc Hn.
    change ([","%byte] ++ t') with (","%byte :: t').
    rewrite (proj2 (HS n acc ltac:(lia)) t'). rewrite IH by lia. destruct m; reflexivity.
Qed.
