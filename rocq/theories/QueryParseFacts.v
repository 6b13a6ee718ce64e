(** Facts about ParseQueryString on any query string. *)
From Coq Require Import Lia Sorting.Permutation Sorting.Sorted.
From Verif Require Import Base Strconv StrconvFacts SortedMap SortedMapFacts Json SpecJson Printer Access Query SpecQuery QueryFacts QueryFacts2 QueryFacts3 ShareFacts RfcFacts AccessFacts SpecDict PropDict PropQuery SpecQueryParse.

(** ** Decoding *)

Lemma hex_spec c n : In (c, n) hex_digits <-> is_hexdigit c = true /\ hexdigit_val c = n.
Proof.
  split.
  - intros H. cbv [In hex_digits] in H. repeat (destruct H as [H|H]; [injection H as <- <-; split; reflexivity|]). destruct H.
  - intros [H <-]. destruct c; try discriminate H; vm_compute; tauto.
Qed.
Lemma unescape_iff s u : query_unescape s = Some u <-> url_text s u.
Proof.
  split.
  - remember (length s) as n eqn:E. assert (L : (length s <= n)%nat) by lia. clear E. revert s u L. induction n as [|n IH]; intros s u L H.
    + destruct s; [|cbn in L; lia]. injection H as <-. constructor.
    + destruct s as [|c s]; [injection H as <-; constructor|]. cbn [length] in L. cbn [query_unescape] in H. destruct (beq_spec c "%"%byte) as [->|N].
      * destruct s as [|a [|b s]]; try discriminate H. destruct (is_hexdigit a) eqn:Ha; [|discriminate H]. destruct (is_hexdigit b) eqn:Hb; [|discriminate H]. cbn [andb] in H.
        destruct (query_unescape s) as [t|] eqn:R; [|discriminate H]. cbn [option_map] in H. injection H as <-. constructor; [apply hex_spec; auto..|]. apply IH; [cbn [length] in L; lia|exact R].
      * destruct (query_unescape s) as [t|] eqn:R; [|discriminate H]. cbn [option_map] in H. injection H as <-. apply IH in R; [|lia]. destruct (beq_spec c "+"%byte) as [->|N']; constructor; assumption.
  - induction 1 as [|t u _ IH|a b x y t u Ha Hb _ IH|c t u N1 N2 _ IH]; [reflexivity| | |].
    + cbn. rewrite IH. reflexivity.
    + apply hex_spec in Ha as [Ha <-], Hb as [Hb <-]. cbn [query_unescape]. change (beq "%"%byte "%"%byte) with true. cbn iota. rewrite Ha, Hb, IH. reflexivity.
    + cbn [query_unescape]. destruct (beq_spec c "%"%byte) as [->|_]; [congruence|]. destruct (beq_spec c "+"%byte) as [->|_]; [congruence|]. rewrite IH. reflexivity.
Qed.
Lemma has_semi p : existsb (fun c => beq c ";"%byte) p = false <-> ~ In ";"%byte p.
Proof.
  split.
  - intros H I. assert (existsb (fun c => beq c ";"%byte) p = true) by (apply existsb_exists; exists ";"%byte; split; [exact I|reflexivity]). congruence.
  - intros N. destruct (existsb (fun c => beq c ";"%byte) p) eqn:E; [|reflexivity]. apply existsb_exists in E as (x & I & X). destruct (beq_spec x ";"%byte) as [->|]; [contradiction|discriminate X].
Qed.
Lemma cut_eq_spec p : ~ In "="%byte p /\ cut_eq p = (p, []) \/ exists k v, p = k ++ "="%byte :: v /\ ~ In "="%byte k /\ cut_eq p = (k, v).
Proof.
  induction p as [|c p IH]; [left; split; [intros []|reflexivity]|]. cbn [cut_eq]. destruct (beq_spec c "="%byte) as [->|N].
  - right. exists [], p. repeat split. intros [].
  - destruct IH as [[I E]|(k & v & -> & I & E)]; rewrite E.
    + left. split; [intros [X|X]; [congruence|contradiction]|reflexivity].
    + right. exists (c :: k), v. repeat split. intros [X|X]; [congruence|contradiction].
Qed.
Lemma setting_iff p m : parse_setting p = Some m <-> part_means p m.
Proof.
  unfold parse_setting. split.
  - intros H. destruct (existsb (fun c => beq c ";"%byte) p) eqn:S; [discriminate H|]. apply has_semi in S.
    destruct p as [|c p]; [injection H as <-; constructor|]. remember (c :: p) as q eqn:Eq.
    destruct (cut_eq_spec q) as [[I E]|(k & v & Ek & I & E)]; rewrite E in H.
    + destruct (query_unescape q) as [k|] eqn:U; [|discriminate H]. cbn in H. injection H as <-. apply part_key; [subst q; discriminate|exact I|exact S|apply unescape_iff, U].
    + destruct (query_unescape k) as [k'|] eqn:U; [|discriminate H]. destruct (query_unescape v) as [v'|] eqn:V; [|discriminate H]. injection H as <-. rewrite Ek in *. apply part_pair; [exact I| |apply unescape_iff, U|apply unescape_iff, V].
      intros X. apply S. apply in_app_or in X as [X|X]; apply in_or_app; [left|right; right]; exact X.
  - destruct 1 as [|kt k N I S U|kt vt k v I S U V]; [reflexivity| |].
    + rewrite (proj2 (has_semi _) S). destruct kt as [|c kt]; [congruence|]. rewrite cut_eq_none by exact I. apply unescape_iff in U. rewrite U. reflexivity.
    + rewrite (proj2 (has_semi _)). 2:{ intros X. apply S. apply in_app_or in X as [X|[X|X]]; apply in_or_app; [left; exact X|discriminate X|right; exact X]. }
      destruct (kt ++ "="%byte :: vt) as [|c l] eqn:E; [destruct kt; discriminate E|]. rewrite <- E. rewrite cut_eq_clean by exact I. apply unescape_iff in U, V. rewrite U, V. reflexivity.
Qed.
Lemma query_iff s m : parse_query s = Some m <-> query_means s m.
Proof.
  unfold parse_query. split.
  - intros H. rewrite <- (join_split "&"%byte s). pose proof (split_pieces_clean "&"%byte s) as C. pose proof (split_nonempty "&"%byte s) as N.
    revert m H. induction (split_on "&"%byte s) as [|p ps IH]; intros m H; [congruence|]. inversion C as [|? ? Cp Cps]; subst. cbn [parse_settings] in H.
    destruct (parse_setting p) as [a|] eqn:A; [|discriminate H]. destruct (parse_settings ps) as [b|] eqn:Bq; [|discriminate H]. injection H as <-. apply setting_iff in A.
    destruct ps as [|p' ps]; [injection Bq as <-; rewrite app_nil_r; constructor; assumption|].
    change (join_with "&"%byte (p :: p' :: ps)) with (p ++ "&"%byte :: join_with "&"%byte (p' :: ps)). constructor; [exact Cp|exact A|]. apply IH; [exact Cps|discriminate|reflexivity].
  - induction 1 as [p m C A|p m s m' C A _ IH].
    + rewrite split_clean by exact C. cbn [parse_settings]. apply setting_iff in A. rewrite A, app_nil_r. reflexivity.
    + rewrite split_app, (split_clean _ p C). cbn [app parse_settings]. apply setting_iff in A. rewrite A, IH. reflexivity.
Qed.
Lemma escape_text s : query_escape s = flat_map escaped s.
Proof. unfold query_escape. induction s as [|c s IH]; [reflexivity|]. cbn [flat_map]. rewrite IH. f_equal. destruct c; reflexivity. Qed.

(** ** Keys and paths *)

Lemma path_split k p : path_of k p <-> split_on "."%byte k = p.
Proof.
  split.
  - induction 1 as [w N|w k p N _ IH]; [apply split_clean, N|]. rewrite split_app, (split_clean _ w N), IH. reflexivity.
  - intros <-. pose proof (split_pieces_clean "."%byte k) as C. pose proof (split_nonempty "."%byte k) as N. rewrite <- (join_split "."%byte k) at 1. induction (split_on "."%byte k) as [|w ps IH]; [congruence|].
    inversion C as [|? ? Cp Cps]; subst. destruct ps as [|p' ps]; [constructor; exact Cp|].
    change (join_with "."%byte (w :: p' :: ps)) with (w ++ "."%byte :: join_with "."%byte (p' :: ps)). constructor; [exact Cp|]. apply IH; [exact Cps|discriminate].
Qed.
Lemma given_iff k m vs : values_given k m vs <-> values_of m k = vs.
Proof.
  unfold values_of. split.
  - induction 1 as [|v m vs _ IH|k' v m vs N _ IH]; [reflexivity| |]; cbn [filter fst].
    + rewrite bseq_refl. cbn [map snd]. rewrite IH. reflexivity.
    + destruct (bseq_spec k k') as [->|_]; [congruence|exact IH].
  - intros <-. induction m as [|[k' v] m IH]; [constructor|]. cbn [filter fst]. destruct (bseq_spec k k') as [->|N]; [constructor; exact IH|constructor; [congruence|exact IH]].
Qed.
Lemma seg_text w : seg_string (string2seg w) = as_number w.
Proof. unfold string2seg, as_number. destruct (parse_int w); reflexivity. Qed.
Lemma segments_text k : map seg_string (string2segments k) = map as_number (split_on "."%byte k).
Proof. unfold string2segments. rewrite map_map. apply map_ext, seg_text. Qed.
Lemma segments_nonempty k : string2segments k <> [].
Proof. unfold string2segments. intros E. apply map_eq_nil in E. eapply split_nonempty, E. Qed.
Lemma seg_of_ok w : ~ In "."%byte w -> seg_ok (string2seg w).
Proof. intros N. unfold string2seg. destruct (parse_int w) as [n|] eqn:E; [eapply parse_int_range, E|split; assumption]. Qed.
Lemma segments_ok k : Forall seg_ok (string2segments k).
Proof. unfold string2segments. apply Forall_map. eapply Forall_impl; [|apply split_pieces_clean]. intros w. apply seg_of_ok. Qed.
Lemma seg_inj s s' : seg_ok s -> seg_ok s' -> seg_string s = seg_string s' -> s = s'.
Proof. intros O O' E. rewrite <- (string2seg_string s O), <- (string2seg_string s' O'), E. reflexivity. Qed.
Lemma segs_inj x y : Forall seg_ok x -> Forall seg_ok y -> map seg_string x = map seg_string y -> x = y.
Proof.
  intros O. revert y. induction O as [|s x Os _ IH]; intros [|s' y] O' E; try discriminate E; [reflexivity|]. inversion O' as [|? ? Os' Oy]; subst. injection E as E1 E2.
  rewrite (seg_inj _ _ Os Os' E1), (IH _ Oy E2). reflexivity.
Qed.

(** ** Errors *)

Lemma add_none segs : forall val, fst (add_seg None segs val) = RErr ErrNilInputField /\ val = [] \/ exists v, fst (add_seg None segs val) = ROk v /\ val <> [].
Proof.
  induction segs as [|s segs IH]; intros val.
  - destruct val as [|v [|v' val]]; [left; auto|right; eexists; split; [reflexivity|discriminate]..].
  - destruct (IH val) as [[E N]|[v [E N]]]; [left|right]; cbn [add_seg]; destruct s as [[|n|n]|t]; cbn [seg_number length Z.of_nat Z.ltb Z.eqb Z.compare sm_get]; rewrite E; try (split; [reflexivity|exact N]); eexists; (split; [reflexivity|exact N]).
Qed.
Lemma add_top nid kvs s segs val :
  (exists kvs', add_seg (Some (JDict nid kvs)) (s :: segs) val = (ROk (JDict nid kvs'), JDict nid kvs') /\
     (forall k, sm_get kvs' k = None <-> sm_get kvs k = None /\ k <> seg_string s) /\ (val <> [] \/ sm_get kvs (seg_string s) <> None)) \/
  (add_seg (Some (JDict nid kvs)) (s :: segs) val = (RErr ErrNilInputField, JDict nid kvs) /\ val = [] /\ sm_get kvs (seg_string s) = None).
Proof.
  rewrite add_seg_dict. destruct (sm_get kvs (seg_string s)) as [next|] eqn:G.
  - left. eexists. split; [reflexivity|]. split; [|right; discriminate]. intros k. rewrite sm_get_add. destruct (bseq_spec k (seg_string s)) as [->|N]; [split; [discriminate|intros [_ H]; congruence]|tauto].
  - destruct (add_none segs val) as [[E N]|[v [E N]]]; rewrite E; [right; auto|left]. eexists. split; [reflexivity|]. split; [|left; exact N].
    intros k. rewrite sm_get_add. destruct (bseq_spec k (seg_string s)) as [->|N']; [split; [discriminate|intros [_ H]; congruence]|tauto].
Qed.
Definition first_of (x : list seg) : bytes := match x with [] => [] | s :: _ => seg_string s end.
Lemma add_all_error m : forall L nid kvs, Forall (fun x => x <> []) L ->
  ((exists e, add_all m (JDict nid kvs) L = RErr e) <->
   exists L1 x L2, L = L1 ++ x :: L2 /\ values_of m (segments2string x) = [] /\ sm_get kvs (first_of x) = None /\ forall y, In y L1 -> first_of y <> first_of x) /\
  (forall e, add_all m (JDict nid kvs) L = RErr e -> e = ErrNilInputField) /\
  (forall j, add_all m (JDict nid kvs) L = ROk j -> exists kvs', j = JDict nid kvs').
Proof.
  induction L as [|x L IH]; intros nid kvs NE.
  - cbn [add_all]. split; [|split]; [split; [intros [e E]; discriminate E|intros ([|? ?] & x & L2 & E & _); discriminate E]|discriminate|intros j E; injection E as <-; eauto].
  - inversion NE as [|? ? Nx NL]; subst. destruct x as [|s x]; [congruence|]. cbn [add_all]. change (first_of (s :: x)) with (seg_string s).
    destruct (add_top nid kvs s x (values_of m (segments2string (s :: x)))) as [(kvs' & E & K & N)|(E & V & N)]; rewrite E.
    + destruct (IH nid kvs' NL) as (A & A2 & A3). split; [|split; assumption]. rewrite A. split.
      * intros (L1 & y & L2 & -> & V & G & F). exists ((s :: x) :: L1), y, L2. split; [reflexivity|]. split; [exact V|]. apply K in G as [G D]. split; [exact G|]. intros z [<-|I]; [change (seg_string s <> first_of y); congruence|auto].
      * intros (L1 & y & L2 & EL & V & G & F). destruct L1 as [|z L1].
        { cbn [app] in EL. injection EL as <- <-. destruct N as [N|N]; [contradiction|]. contradiction. }
        cbn [app] in EL. injection EL as <- ->. exists L1, y, L2. split; [reflexivity|]. split; [exact V|]. split; [|intros z I; apply F; right; exact I].
        apply K. split; [exact G|]. intros X. apply (F (s :: x)); [left; reflexivity|]. symmetry. exact X.
    + split; [|split]; [|intros e X; congruence|discriminate]. split; [intros _|intros _; eauto]. exists [], (s :: x), L. split; [reflexivity|]. split; [exact V|]. split; [exact N|]. intros y [].
Qed.

Definition segs_of (m : list (bytes * bytes)) : list (list seg) := sort_segs (map string2segments (map_keys m)).
Lemma in_segs m x : In x (segs_of m) <-> exists k, In k (map fst m) /\ x = string2segments k.
Proof.
  unfold segs_of. split.
  - intros I. apply (Permutation_in _ (sort_perm _)) in I. apply in_map_iff in I as (k & <- & I). exists k. split; [|reflexivity]. exact (proj1 (dedup_in _ _) I).
  - intros (k & I & ->). apply (Permutation_in _ (Permutation_sym (sort_perm _))). apply in_map. exact (proj2 (dedup_in _ _) I).
Qed.
Lemma segs_nonempty m : Forall (fun x => x <> []) (segs_of m).
Proof. apply Forall_forall. intros x I. apply in_segs in I as (k & _ & ->). apply segments_nonempty. Qed.
Lemma sorted_app_le (L1 : list (list seg)) x L2 : StronglySorted sle (L1 ++ x :: L2) -> Forall (sle x) L2 /\ Forall (fun y => sle y x) L1.
Proof.
  induction L1 as [|y L1 IH]; intros S; cbn [app] in S; inversion S as [|? ? S' F]; subst; [split; [exact F|constructor]|]. destruct (IH S') as [A C]. split; [exact A|]. constructor; [|exact C].
  rewrite Forall_forall in F. apply F, in_or_app. right. left. reflexivity.
Qed.
Lemma values_none m k : values_of m k = [] <-> ~ In k (map fst m).
Proof.
  split.
  - intros E I. apply in_map_iff in I as ([k' v] & X & I). cbn [fst] in X. subst k'. apply (proj1 (values_in m k)); [eauto|exact E].
  - intros N. destruct (values_of m k) eqn:E; [reflexivity|]. exfalso. apply N. destruct (proj2 (values_in m k)) as [v I]; [rewrite E; discriminate|]. apply (in_map fst) in I. exact I.
Qed.
Lemma first_split (P : list seg -> Prop) (dec : forall x, {P x} + {~ P x}) L x : In x L -> P x -> exists L1 y L2, L = L1 ++ y :: L2 /\ P y /\ forall z, In z L1 -> ~ P z.
Proof.
  induction L as [|a L IH]; intros I Px; [destruct I|]. destruct (dec a) as [Pa|Na]; [exists [], a, L; repeat split; [exact Pa|intros z []]|].
  destruct I as [->|I]; [contradiction|]. destruct (IH I Px) as (L1 & y & L2 & -> & Py & F). exists (a :: L1), y, L2. repeat split; [exact Py|]. intros z [<-|Iz]; auto.
Qed.
Lemma bytes_dec (a b : bytes) : {a = b} + {a <> b}.
Proof. destruct (bseq a b) eqn:E; [left; apply bseq_eq, E|right; intros ->; rewrite bseq_refl in E; discriminate E]. Qed.
Lemma parse_error s m : parse_query s = Some m ->
  (exists e, ParseQueryString s = RErr e) <->
  exists k, In k (map fst m) /\ ~ In (segments2string (string2segments k)) (map fst m) /\
    forall k', In k' (map fst m) -> first_of (string2segments k') = first_of (string2segments k) -> segs_less (string2segments k') (string2segments k) = false.
Proof.
  intros E. unfold ParseQueryString. rewrite E. fold (segs_of m). destruct (add_all_error m (segs_of m) 0 [] (segs_nonempty m)) as (A & _ & _). rewrite A. clear A. split.
  - intros (L1 & x & L2 & EL & V & _ & F). assert (Ix : In x (segs_of m)) by (rewrite EL; apply in_or_app; right; left; reflexivity). apply in_segs in Ix as (k & Ik & ->). exists k. split; [exact Ik|]. split; [apply values_none, V|].
    intros k' Ik' Ef. assert (I' : In (string2segments k') (segs_of m)) by (apply in_segs; eauto). rewrite EL in I'. pose proof (sort_sorted (map string2segments (map_keys m))) as S. fold (segs_of m) in S. rewrite EL in S. apply sorted_app_le in S as [S _].
    apply in_app_or in I' as [I'|[I'|I']]; [destruct (F _ I' Ef)|rewrite <- I'; apply segs_less_irrefl|]. rewrite Forall_forall in S. apply (S _ I').
  - intros (k & Ik & N & M). assert (Is : In (string2segments k) (segs_of m)) by (apply in_segs; eauto).
    destruct (first_split (fun x => first_of x = first_of (string2segments k)) (fun x => bytes_dec _ _) _ _ Is eq_refl) as (L1 & y & L2 & EL & Ey & F).
    assert (Iy : In y (segs_of m)) by (rewrite EL; apply in_or_app; right; left; reflexivity). apply in_segs in Iy as (k' & Ik' & ->). specialize (M k' Ik' Ey).
    assert (X : string2segments k' = string2segments k).
    { pose proof (sort_sorted (map string2segments (map_keys m))) as S. fold (segs_of m) in S. rewrite EL in S, Is. apply sorted_app_le in S as [S _]. apply in_app_or in Is as [I|[I|I]]; [destruct (F _ I eq_refl)|exact I|].
      rewrite Forall_forall in S. specialize (S _ I). unfold sle in S. destruct (segs_less_total (string2segments k') (string2segments k)) as [H|[H|H]]; congruence. }
    exists L1, (string2segments k'), L2. split; [exact EL|]. split; [rewrite X; apply values_none, N|]. split; [reflexivity|]. intros z Iz. rewrite Ey. apply F, Iz.
Qed.

(** ** What was set stays *)

Definition keeps (vs : list bytes) (y : json) : Prop :=
  match vs with [v] => y = JString v | _ => exists more, y = JArray (map JString vs ++ more) end.
Lemma string_stays v segs val : snd (add_seg (Some (JString v)) segs val) = JString v.
Proof. destruct segs; reflexivity. Qed.
Lemma replace_spec n l y l' : replace_nth n l y = Some l' -> l' = firstn n l ++ y :: skipn (S n) l /\ (n < length l)%nat.
Proof.
  revert l l'. induction n as [|n IH]; intros [|x l] l' E; cbn [replace_nth] in E; try discriminate E; [injection E as <-; cbn; split; [reflexivity|lia]|].
  destruct (replace_nth n l y) as [r|] eqn:R; [|discriminate E]. injection E as <-. destruct (IH _ _ R) as [-> L]. cbn [firstn skipn app length]. split; [reflexivity|lia].
Qed.
Lemma get_at_spec l i x : array_get_at l i = ROk x -> nth_error l (Z.to_nat (if i <? 0 then Z.of_nat (length l) + i else i)) = Some x.
Proof.
  unfold array_get_at. cbv zeta. destruct ((0 <=? _) && _); [|discriminate]. destruct (nth_error l _) as [v|]; [congruence|discriminate].
Qed.
Lemma replace_keeps vs more n l' y : (forall t, nth_error (map JString vs ++ more) n = Some (JString t) -> y = JString t) ->
  replace_nth n (map JString vs ++ more) y = Some l' -> exists more', l' = map JString vs ++ more'.
Proof.
  revert n l'. induction vs as [|v vs IH]; intros n l' H E; [exists l'; reflexivity|]. destruct n as [|n]; cbn [map app replace_nth nth_error] in *.
  - injection E as <-. rewrite (H v eq_refl). eexists. reflexivity.
  - destruct (replace_nth n (map JString vs ++ more) y) as [r|] eqn:R; [|discriminate E]. injection E as <-. destruct (IH _ _ H R) as [more' ->]. eexists. reflexivity.
Qed.
Lemma keeps_stays vs y segs val : vs <> [] -> keeps vs y -> keeps vs (snd (add_seg (Some y) segs val)).
Proof.
  intros N K. destruct vs as [|v [|v' vs]]; [congruence|cbn in K; subst y; apply string_stays|]. cbn [keeps] in *. destruct K as [more ->]. destruct segs as [|s segs]; [exists more; reflexivity|].
  cbn [add_seg]. remember (v :: v' :: vs) as l eqn:El. set (L := map JString l ++ more).
  destruct (seg_number s <? Z.of_nat (length L)).
  - destruct (array_get_at L (seg_number s)) as [next|e] eqn:G; [|exists more; reflexivity]. apply get_at_spec in G.
    destruct (replace_nth _ L _) as [l'|] eqn:R; [|exists more; reflexivity]. cbn [snd]. unfold L in *. apply replace_keeps in R as [more' ->]; [eauto|]. intros t E. rewrite E in G. injection G as <-. apply string_stays.
  - destruct (seg_number s =? Z.of_nat (length L)); [|exists more; reflexivity]. destruct (fst (add_seg None segs val)) as [z|e]; [|exists more; reflexivity]. cbn [snd]. unfold L. exists (more ++ [z]). rewrite app_assoc. reflexivity.
Qed.
Lemma keeps_new vs v : fst (add_seg None [] vs) = ROk v -> keeps vs v.
Proof. destruct vs as [|a [|b vs]]; cbn; intros E; [discriminate E|congruence|]. injection E as <-. exists []. rewrite app_nil_r. reflexivity. Qed.
Lemma add_all_keeps m s vs : vs <> [] -> forall L nid kvs j, Forall (Forall seg_ok) L -> StronglySorted sle L -> seg_ok s -> Forall (fun x => x <> []) L ->
  values_of m (segments2string [s]) = vs ->
  (exists y, sm_get kvs (seg_string s) = Some y /\ keeps vs y) \/ (sm_get kvs (seg_string s) = None /\ In [s] L) ->
  add_all m (JDict nid kvs) L = ROk j -> exists nid' kvs' y, j = JDict nid' kvs' /\ sm_get kvs' (seg_string s) = Some y /\ keeps vs y.
Proof.
  intros NV. induction L as [|x L IH]; intros nid kvs j OL SL Os NE V H E.
  - cbn [add_all] in E. injection E as <-. destruct H as [(y & G & K)|[_ []]]. eauto 6.
  - inversion OL as [|? ? Ox OL']; subst. inversion SL as [|? ? SL' FL]; subst. inversion NE as [|? ? Nx NL]; subst. destruct x as [|t x]; [congruence|]. inversion Ox as [|? ? Ot Ox']; subst.
    cbn [add_all] in E. rewrite add_seg_dict in E. destruct (bytes_dec (seg_string t) (seg_string s)) as [Et|Nt].
    + apply seg_inj in Et; [subst t|assumption..]. destruct H as [(y & G & K)|[G I]].
      * rewrite G in E. cbv zeta in E. cbn iota in E. eapply IH; try eassumption; [reflexivity|]. left. rewrite sm_get_add, bseq_refl. eexists. split; [reflexivity|]. apply keeps_stays; assumption.
      * assert (X : x = []). { destruct I as [I|I]; [congruence|]. rewrite Forall_forall in FL. specialize (FL _ I). destruct x as [|a x]; [reflexivity|exfalso]. unfold sle, segs_less in FL. cbn in FL. discriminate FL. }
        subst x. rewrite G in E. destruct (add_none [] (values_of m (segments2string [s]))) as [[_ V]|[v [Ev _]]]; [contradiction|]. rewrite Ev in E. cbv zeta in E. cbn iota in E.
        eapply IH; try eassumption; [reflexivity|]. left. rewrite sm_get_add, bseq_refl. exists v. split; [reflexivity|]. apply keeps_new, Ev.
    + assert (H' : forall w, (exists y, sm_get (sm_add kvs (seg_string t) w) (seg_string s) = Some y /\ keeps (values_of m (segments2string [s])) y) \/ (sm_get (sm_add kvs (seg_string t) w) (seg_string s) = None /\ In [s] L)).
      { intros w. rewrite sm_get_add. destruct (bseq_spec (seg_string s) (seg_string t)) as [X|_]; [congruence|]. destruct H as [H|[G [I|I]]]; [left; exact H|injection I as -> _; congruence|right; auto]. }
      destruct (sm_get kvs (seg_string t)) as [next|]; [|destruct (fst (add_seg None x (values_of m (segments2string (t :: x))))) as [next|e]; [|discriminate E]]; cbv zeta in E; cbn iota in E; (eapply IH; [exact OL'|exact SL'|exact Os|exact NL|reflexivity|apply H'|exact E]).
Qed.

(** ** Everything comes from the query *)

Lemma firstn_in {A} n (l : list A) x : In x (firstn n l) -> In x l.
Proof. intros I. rewrite <- (firstn_skipn n l). apply in_or_app. left. exact I. Qed.
Lemma skipn_in {A} n (l : list A) x : In x (skipn n l) -> In x l.
Proof. intros I. rewrite <- (firstn_skipn n l). apply in_or_app. right. exact I. Qed.
Inductive made (m : list (bytes * bytes)) : json -> Prop :=
| made_str k t : In (k, t) m -> made m (JString t)
| made_arr l : Forall (made m) l -> made m (JArray l)
| made_dict kvs : Forall (fun kv => made m (snd kv)) kvs -> made m (JDict 0 kvs).
Lemma made_sub m j x : made m j -> subvalue x j -> made m x.
Proof.
  intros M S. induction S as [|v l I _ IH|k v nid kvs I _ IH]; [exact M| |]; inversion M as [|? F|? F]; subst; rewrite Forall_forall in F; apply IH; [apply F, I|apply (F _ I)].
Qed.
Lemma made_vals m vs v : Forall (fun t => exists k, In (k, t) m) vs -> fst (add_seg None [] vs) = ROk v -> made m v.
Proof.
  intros F E. destruct vs as [|a [|b vs]]; [discriminate E| |].
  - injection E as <-. inversion F as [|? ? [k I] _]; subst. econstructor; exact I.
  - injection E as <-. constructor. apply Forall_map. eapply Forall_impl; [|exact F]. intros t [k I]. econstructor; exact I.
Qed.
Lemma made_add m kvs k v : Forall (fun kv : bytes * json => made m (snd kv)) kvs -> made m v -> Forall (fun kv => made m (snd kv)) (sm_add kvs k v).
Proof. intros F M. apply Forall_forall. intros [k' v'] I. apply in_sm_add in I as [[_ ->]|I]; [exact M|]. rewrite Forall_forall in F. apply (F _ I). Qed.
Lemma made_seg m vs : Forall (fun t => exists k, In (k, t) m) vs -> forall segs,
  (forall v, fst (add_seg None segs vs) = ROk v -> made m v) /\ (forall b, made m b -> made m (snd (add_seg (Some b) segs vs))).
Proof.
  intros F. induction segs as [|s segs [IH1 IH2]]; [split; [intros v; apply made_vals, F|auto]|].
  assert (A : forall b, made m b -> forall r j, add_seg (Some b) (s :: segs) vs = (r, j) -> made m j /\ forall v, r = ROk v -> made m v).
  { intros b M r j E. destruct M as [k t I|l Fl|kvs Fk].
    - cbn [add_seg] in E. injection E as <- <-. split; [econstructor; exact I|discriminate].
    - cbn [add_seg] in E. destruct (seg_number s <? Z.of_nat (length l)).
      + destruct (array_get_at l (seg_number s)) as [next|e] eqn:G; [|injection E as <- <-; split; [constructor; exact Fl|discriminate]]. apply get_at_spec, nth_error_In in G.
        destruct (replace_nth _ l _) as [l'|] eqn:R; [|injection E as <- <-; split; [constructor; exact Fl|discriminate]].
        assert (M' : made m (JArray l')). { apply replace_spec in R as [-> _]. constructor. rewrite Forall_forall in Fl. apply Forall_forall. intros x Ix. apply in_app_or in Ix as [Ix|[<-|Ix]]; [apply Fl; eapply firstn_in; exact Ix|apply IH2, Fl, G|apply Fl; eapply skipn_in; exact Ix]. }
        injection E as <- <-. split; [exact M'|intros v X; injection X as <-; exact M'].
      + destruct (seg_number s =? Z.of_nat (length l)); [|injection E as <- <-; split; [constructor; exact Fl|discriminate]].
        destruct (fst (add_seg None segs vs)) as [next|e]; [|injection E as <- <-; split; [constructor; exact Fl|discriminate]].
        assert (M' : made m (JArray (l ++ [next]))) by (constructor; apply Forall_app; split; [exact Fl|constructor; [apply IH1; reflexivity|constructor]]).
        injection E as <- <-. split; [exact M'|intros v X; injection X as <-; exact M'].
    - rewrite add_seg_dict in E. destruct (sm_get kvs (seg_string s)) as [next|] eqn:G.
      + assert (M' : made m (JDict 0 (sm_add kvs (seg_string s) (snd (add_seg (Some next) segs vs))))). { constructor. apply made_add; [exact Fk|]. apply IH2. apply sm_get_some_in in G. rewrite Forall_forall in Fk. apply (Fk _ G). }
        injection E as <- <-. split; [exact M'|intros v X; injection X as <-; exact M'].
      + destruct (fst (add_seg None segs vs)) as [next|e]; [|injection E as <- <-; split; [constructor; exact Fk|discriminate]].
        assert (M' : made m (JDict 0 (sm_add kvs (seg_string s) next))) by (constructor; apply made_add; [exact Fk|apply IH1; reflexivity]).
        injection E as <- <-. split; [exact M'|intros v X; injection X as <-; exact M']. }
  split.
  - intros v E. set (b := match s with SNum 0 => JArray [] | _ => JDict 0 [] end).
    assert (X : fst (add_seg (Some b) (s :: segs) vs) = ROk v) by (rewrite <- E; subst b; reflexivity).
    destruct (add_seg (Some b) (s :: segs) vs) as [r j] eqn:Er. cbn [fst] in X. eapply (A b); [|exact Er|exact X]. subst b. destruct s as [[| |]|]; constructor; constructor.
  - intros b M. destruct (add_seg (Some b) (s :: segs) vs) as [r j] eqn:Er. exact (proj1 (A b M _ _ Er)).
Qed.
Lemma values_are m k : Forall (fun t => exists k', In (k', t) m) (values_of m k).
Proof. unfold values_of. apply Forall_map, Forall_forall. intros [k' v] I. apply filter_In in I as [I _]. eauto. Qed.
Lemma add_all_made m : forall L d j, made m d -> add_all m d L = ROk j -> made m j.
Proof.
  induction L as [|x L IH]; intros d j M E; cbn [add_all] in E; [injection E as <-; exact M|].
  pose proof (proj2 (made_seg m _ (values_are m (segments2string x)) x) d M) as M'. destruct (add_seg (Some d) x (values_of m (segments2string x))) as [[r|e] d']; [|discriminate E]. eapply IH; [exact M'|exact E].
Qed.

(** ** Nested dicts *)

Lemma given_new vs : vs <> [] -> fst (add_seg None [] vs) = ROk (given_value vs).
Proof. destruct vs as [|a [|b vs]]; [congruence|reflexivity..]. Qed.
Lemma add_is_add vs : vs <> [] -> forall x s nid kvs, Forall (fun t => t <> SNum 0) x ->
  (forall q r v, map seg_string (s :: x) = q ++ r -> at_path (JDict nid kvs) q v -> r <> [] /\ exists n sub, v = JDict n sub) ->
  exists kvs', add_seg (Some (JDict nid kvs)) (s :: x) vs = (ROk (JDict nid kvs'), JDict nid kvs') /\ dict_add kvs (given_value vs) (map seg_string (s :: x)) = (kvs', None).
Proof.
  intros NV. induction x as [|t x IH]; intros s nid kvs NZ FR.
  - rewrite add_seg_dict. destruct (sm_get kvs (seg_string s)) as [next|] eqn:G.
    + exfalso. destruct (FR [seg_string s] [] next) as [X _]; [reflexivity| |congruence]. econstructor; [rewrite lookup_sm_get; exact G|constructor].
    + rewrite (given_new _ NV). eexists. split; reflexivity.
  - inversion NZ as [|? ? Nt NZ']; subst. rewrite add_seg_dict. change (map seg_string (s :: t :: x)) with (seg_string s :: map seg_string (t :: x)) in *. cbn [dict_add]. change (map seg_string (t :: x)) with (seg_string t :: map seg_string x) at 1. cbn [add_path].
    destruct (sm_get kvs (seg_string s)) as [next|] eqn:G.
    + destruct (FR [seg_string s] (map seg_string (t :: x)) next) as (_ & n & sub & ->); [reflexivity|econstructor; [rewrite lookup_sm_get; exact G|constructor]|].
      destruct (IH t n sub NZ') as (sub' & E1 & E2).
      { intros q r v E A. apply (FR (seg_string s :: q) r v); [rewrite E; reflexivity|]. econstructor; [rewrite lookup_sm_get; exact G|exact A]. }
      rewrite E1, G. cbn [snd]. change (map seg_string (t :: x)) with (seg_string t :: map seg_string x) in E2. cbn [dict_add] in E2. rewrite E2. eexists. split; reflexivity.
    + assert (X : add_seg None (t :: x) vs = add_seg (Some (JDict 0 [])) (t :: x) vs) by (destruct t as [[| |]|]; [congruence|reflexivity..]). rewrite X. clear X.
      destruct (IH t 0 [] NZ') as (sub' & E1 & E2).
      { intros q r v E A. inversion A; subst; [|discriminate]. split; [intros ->; discriminate E|eauto]. }
      rewrite E1. cbn [fst]. change (map seg_string (t :: x)) with (seg_string t :: map seg_string x) in E2. cbn [dict_add] in E2. unfold dict_set. rewrite sm_get_add, bseq_refl, E2. eexists. split; [reflexivity|]. rewrite sm_add_twice. reflexivity.
Qed.
Lemma array_stays v v' vs t segs val : snd (add_seg (Some (JArray (map JString (v :: v' :: vs)))) (SText t :: segs) val) = JArray (map JString (v :: v' :: vs)).
Proof.
  cbn [add_seg]. cbn [seg_number]. replace (0 <? Z.of_nat (length (map JString (v :: v' :: vs)))) with true by (symmetry; apply Z.ltb_lt; cbn [map length]; lia).
  unfold array_get_at. change (0 <? 0) with false. cbv zeta. cbn iota. replace (0 <? Z.of_nat (length (map JString (v :: v' :: vs)))) with true by (symmetry; apply Z.ltb_lt; cbn [map length]; lia).
  cbn [Z.leb Z.compare andb Z.to_nat nth_error map replace_nth]. rewrite string_stays. reflexivity.
Qed.
Lemma add_hidden vs : forall y body z w, json_ok body -> at_path body (map seg_string y) w -> z <> [] ->
  (forall segs, segs = z -> snd (add_seg (Some w) segs vs) = w) -> snd (add_seg (Some body) (y ++ z) vs) = body.
Proof.
  induction y as [|s y IH]; intros body z w O A NZ H.
  - inversion A; subst. apply H. reflexivity.
  - inversion A as [|nid kvs ? ? v ? L A']; subst. cbn [app]. rewrite add_seg_dict. rewrite lookup_sm_get in L. rewrite L. cbv zeta. cbn [snd].
    inversion O as [| | | | | |? ? KI Ol _|]; subst. rewrite (IH v z w); [|rewrite Forall_forall in Ol; apply sm_get_some_in in L; apply (Ol _ L)|exact A'|exact NZ|exact H].
    rewrite lookup_add_same; [reflexivity|exact KI|rewrite lookup_sm_get; exact L].
Qed.
Lemma seg_dec (s t : seg) : {s = t} + {s <> t}.
Proof. decide equality; [apply Z.eq_dec|apply bytes_dec]. Qed.
Definition below (y x : list seg) : Prop := exists z, z <> [] /\ x = y ++ z.
Lemma below_dec y x : {below y x} + {~ below y x}.
Proof.
  revert x. induction y as [|s y IH]; intros x.
  - destruct x as [|t x]; [right; intros (z & N & E); cbn in E; congruence|left; exists (t :: x); split; [discriminate|reflexivity]].
  - destruct x as [|t x]; [right; intros (z & N & E); discriminate E|]. destruct (seg_dec s t) as [->|N]; [|right; intros (z & _ & E); cbn in E; congruence].
    destruct (IH x) as [D|D]; [left; destruct D as (z & N & ->); exists z; split; [exact N|reflexivity]|right; intros (z & N & E); apply D; exists z; split; [exact N|cbn in E; congruence]].
Qed.
Definition hidden (P : list (list seg)) (x : list seg) : Prop := exists y, In y P /\ below y x.
Lemma hidden_dec P x : {hidden P x} + {~ hidden P x}.
Proof.
  destruct (Exists_dec (fun y => below y x) P (fun y => below_dec y x)) as [E|E]; [left; apply Exists_exists in E; exact E|right; intros H; apply E, Exists_exists, H].
Qed.
Lemma below_length y x : below y x -> (length y < length x)%nat.
Proof. intros (z & N & ->). rewrite app_length. destruct z; [congruence|cbn [length]; lia]. Qed.
Lemma below_trans a b c : below a b -> below b c -> below a c.
Proof. intros (z & N & ->) (z' & N' & ->). exists (z ++ z'). split; [destruct z; [congruence|discriminate]|]. rewrite app_assoc. reflexivity. Qed.
Lemma hidden_top P x : hidden P x -> exists y, In y P /\ below y x /\ ~ hidden P y.
Proof.
  intros (y & I & B). remember (length y) as n eqn:En. assert (L : (length y <= n)%nat) by lia. clear En. revert y I B L. induction n as [|n IH]; intros y I B L; (destruct (hidden_dec P y) as [(y' & I' & B')|N]; [|exists y; auto]).
  - apply below_length in B'. lia.
  - apply (IH y'); [exact I'|eapply below_trans; eassumption|]. apply below_length in B'. lia.
Qed.

Section Dicts.
Context (m : list (bytes * bytes)).
Definition val_of (x : list seg) : list bytes := values_of m (segments2string x).
Definition f_of (x : list seg) : json := given_value (val_of x).
Definition dict_inv (P : list (list seg)) (kvs : list (bytes * json)) : Prop :=
  json_ok (JDict 0 kvs) /\
  (forall p v, p <> [] -> at_path (JDict 0 kvs) p v ->
     (exists x, In x P /\ map seg_string x = p /\ ~ hidden P x /\ v = f_of x) \/
     ((exists n sub, v = JDict n sub) /\ exists x z, z <> [] /\ In x P /\ ~ hidden P x /\ map seg_string x = p ++ z)) /\
  (forall x, In x P -> ~ hidden P x -> at_path (JDict 0 kvs) (map seg_string x) (f_of x)).

Lemma given_ok vs : json_ok (given_value vs).
Proof using.
  assert (A : forall l, json_ok (JArray (map JString l))) by (intros l; constructor; apply Forall_map, Forall_forall; intros; constructor).
  destruct vs as [|a [|b vs]]; [apply A|constructor|apply A].
Qed.
Lemma given_leaf vs r v : at_path (given_value vs) r v -> r = [] /\ v = given_value vs.
Proof using. destruct vs as [|a [|b vs]]; cbn; intros H; inversion H; subst; auto. Qed.
Lemma map_prefix (q r : list bytes) x : map seg_string x = q ++ r -> exists y z, x = y ++ z /\ map seg_string y = q /\ map seg_string z = r.
Proof using.
  revert x. induction q as [|k q IH]; intros x E; [exists [], x; auto|]. destruct x as [|s x]; [discriminate E|]. cbn in E. injection E as <- E. destruct (IH _ E) as (y & z & -> & <- & <-). exists (s :: y), z. auto.
Qed.

Lemma dict_step P kvs x : dict_inv P kvs -> Forall (Forall seg_ok) P -> Forall seg_ok x -> x <> [] -> ~ In x P ->
  (forall y, In y P -> (length y <= length x)%nat /\ y <> [] /\ val_of y <> []) ->
  val_of x <> [] -> Forall (fun t => t <> SNum 0) (tl x) ->
  (forall y v v' vs s z, In y P -> val_of y = v :: v' :: vs -> x = y ++ s :: z -> exists t, s = SText t) ->
  exists kvs', add_seg (Some (JDict 0 kvs)) x (val_of x) = (ROk (JDict 0 kvs'), JDict 0 kvs') /\ dict_inv (P ++ [x]) kvs'.
Proof using.
  intros (O & I1 & I2) OP Ox Nx NI LP Vx Tx AR.
  assert (HP : forall y, In y P -> hidden (P ++ [x]) y <-> hidden P y).
  { intros y Iy. split.
    - intros (z & Iz & Bz). apply in_app_or in Iz as [Iz|[<-|[]]]; [exists z; auto|]. apply below_length in Bz. destruct (LP _ Iy) as [L _]. lia.
    - intros (z & Iz & Bz). exists z. split; [apply in_or_app; left; exact Iz|exact Bz]. }
  assert (HX : hidden (P ++ [x]) x <-> hidden P x).
  { split.
    - intros (z & Iz & Bz). apply in_app_or in Iz as [Iz|[<-|[]]]; [exists z; auto|]. apply below_length in Bz. lia.
    - intros (z & Iz & Bz). exists z. split; [apply in_or_app; left; exact Iz|exact Bz]. }
  destruct x as [|s x]; [congruence|]. destruct (hidden_dec P (s :: x)) as [H|H].
  - destruct (hidden_top P _ H) as (y & Iy & (z & Nz & E) & Hy). pose proof (I2 y Iy Hy) as A.
    assert (ST : snd (add_seg (Some (JDict 0 kvs)) (y ++ z) (val_of (s :: x))) = JDict 0 kvs).
    { apply (add_hidden _ y _ z (f_of y)); [exact O|exact A|exact Nz|]. intros segs ->. unfold f_of in *. destruct (val_of y) as [|v [|v' vs]] eqn:V; [destruct (LP _ Iy) as (_ & _ & X); congruence|apply string_stays|].
      destruct z as [|t z]; [congruence|]. destruct (AR y v v' vs t z Iy V E) as [t' ->]. apply array_stays. }
    exists kvs. split.
    + rewrite <- E in ST. rewrite add_seg_dict in *. destruct y as [|s' y]; [destruct (LP _ Iy) as (_ & X & _); congruence|]. cbn [app] in E. injection E as <- E. cbn [map] in A. inversion A as [|? ? ? ? w ? L A']; subst. rewrite lookup_sm_get in L. rewrite L in *. cbv zeta in *. cbn [snd] in ST. rewrite ST. reflexivity.
    + split; [exact O|]. split.
      * intros p v Np Ap. destruct (I1 p v Np Ap) as [(x' & Ix & Ex & Hx & ->)|(D & x' & z' & Nz' & Ix & Hx & Ex)].
        { left. exists x'. split; [apply in_or_app; left; exact Ix|]. split; [exact Ex|]. split; [rewrite HP by exact Ix; exact Hx|reflexivity]. }
        { right. split; [exact D|]. exists x', z'. split; [exact Nz'|]. split; [apply in_or_app; left; exact Ix|]. split; [rewrite HP by exact Ix; exact Hx|exact Ex]. }
      * intros x' Ix Hx. apply in_app_or in Ix as [Ix|[<-|[]]]; [apply I2; [exact Ix|rewrite <- HP by exact Ix; exact Hx]|]. exfalso. apply Hx, HX, H.
  - assert (FR : forall q r v, map seg_string (s :: x) = q ++ r -> at_path (JDict 0 kvs) q v -> r <> [] /\ exists n sub, v = JDict n sub).
    { intros q r v E A. destruct q as [|k q]; [inversion A; subst; split; [destruct r; [discriminate E|discriminate]|eauto]|]. destruct (I1 (k :: q) v) as [(y & Iy & Ey & Hy & _)|(D & y & z & Nz & Iy & Hy & Ey)]; [discriminate|exact A| |].
      - exfalso. rewrite <- Ey in E. apply map_prefix in E as (y' & z & E & E1 & E2). assert (X : y' = y). { apply segs_inj; [|rewrite Forall_forall in OP; apply OP, Iy|exact E1]. rewrite E in Ox. apply Forall_app in Ox. tauto. }
        subst y'. destruct z as [|t z]; [apply NI; rewrite E, app_nil_r; exact Iy|]. apply H. exists y. split; [exact Iy|]. exists (t :: z). split; [discriminate|exact E].
      - split; [|exact D]. intros ->. rewrite app_nil_r in E. rewrite <- E in Ey. apply (f_equal (@length _)) in Ey. rewrite app_length, !map_length in Ey. destruct (LP _ Iy) as [L _]. destruct z; [congruence|]. cbn [length] in *. lia. }
    destruct (add_is_add (val_of (s :: x)) Vx x s 0 kvs Tx FR) as (kvs' & E1 & E2). exists kvs'. split; [exact E1|].
    pose proof (C16_add_success (f_of (s :: x)) 0 kvs (map seg_string (s :: x)) kvs' ltac:(discriminate) E2) as (B1 & B2 & B3).
    assert (O' : json_ok (JDict 0 kvs')). { pose proof (C16_add_ok (f_of (s :: x)) 0 kvs (map seg_string (s :: x)) O (given_ok _)) as X. unfold f_of in X. rewrite E2 in X. exact X. }
    set (X := s :: x) in *. split; [exact O'|]. split.
    + intros p v Np Ap.
      assert (CASE : (exists r, p = map seg_string X ++ r) \/ (exists r, r <> [] /\ map seg_string X = p ++ r) \/ ~ comparable p (map seg_string X)).
      { clear. generalize (map seg_string X) as q. induction p as [|k p IH]; intros q; [destruct q as [|k q]; [left; exists []; reflexivity|right; left; exists (k :: q); split; [discriminate|reflexivity]]|].
        destruct q as [|k' q]; [left; exists (k :: p); reflexivity|]. destruct (bytes_dec k k') as [->|N].
        - destruct (IH q) as [(r & ->)|[(r & Nr & ->)|N]]; [left; exists r; reflexivity|right; left; exists r; split; [exact Nr|reflexivity]|]. right; right. intros (r & [E|E]); apply N; exists r; [left|right]; cbn in E; injection E as E; exact E.
        - right; right. intros (r & [E|E]); cbn in E; congruence. }
      destruct CASE as [(r & ->)|[(r & Nr & Er)|NC]].
      * apply B1 in Ap. apply given_leaf in Ap as [-> ->]. rewrite app_nil_r. left. exists X. split; [apply in_or_app; right; left; reflexivity|]. split; [reflexivity|]. split; [intros Y; apply H, HX, Y|reflexivity].
      * right. destruct (B3 p r Er Nr) as (n & sub & A & _). rewrite (at_path_fun _ _ _ _ Ap A). split; [eauto|]. exists X, r. split; [exact Nr|]. split; [apply in_or_app; right; left; reflexivity|]. split; [intros Y; apply H, HX, Y|exact Er].
      * apply B2 in Ap; [|exact NC]. destruct (I1 p v Np Ap) as [(x' & Ix & Ex & Hx & ->)|(D & x' & z' & Nz' & Ix & Hx & Ex)].
        { left. exists x'. split; [apply in_or_app; left; exact Ix|]. split; [exact Ex|]. split; [rewrite HP by exact Ix; exact Hx|reflexivity]. }
        { right. split; [exact D|]. exists x', z'. split; [exact Nz'|]. split; [apply in_or_app; left; exact Ix|]. split; [rewrite HP by exact Ix; exact Hx|exact Ex]. }
    + intros x' Ix Hx. apply in_app_or in Ix as [Ix|[<-|[]]].
      * pose proof (proj1 (LP _ Ix)) as Lx. rewrite HP in Hx by exact Ix. apply B2; [|apply I2; assumption]. intros (r & [E|E]).
        { apply map_prefix in E as (y & z & E & Ey & Ez). assert (y = X). { apply segs_inj; [|exact Ox|exact Ey]. rewrite Forall_forall in OP. specialize (OP _ Ix). rewrite E in OP. apply Forall_app in OP. tauto. } subst y.
          rewrite E, app_length in Lx. destruct z; [|cbn [length] in Lx; lia]. rewrite app_nil_r in E. subst x'. contradiction. }
        { apply map_prefix in E as (y & z & E & Ey & Ez). assert (y = x'). { apply segs_inj; [|rewrite Forall_forall in OP; apply OP, Ix|exact Ey]. rewrite E in Ox. apply Forall_app in Ox. tauto. } subst y.
          destruct z as [|t z]; [rewrite app_nil_r in E; rewrite E in NI; contradiction|]. apply H. exists x'. split; [exact Ix|]. exists (t :: z). split; [discriminate|exact E]. }
      * rewrite <- (app_nil_r (map seg_string X)). apply B1. constructor.
Qed.

Lemma dict_loop : forall L P kvs, dict_inv P kvs -> NoDup (P ++ L) -> StronglySorted sle (P ++ L) -> Forall (Forall seg_ok) (P ++ L) ->
  (forall y, In y (P ++ L) -> y <> [] /\ val_of y <> [] /\ Forall (fun t => t <> SNum 0) (tl y)) ->
  (forall y x v v' vs s z, In y (P ++ L) -> In x (P ++ L) -> val_of y = v :: v' :: vs -> x = y ++ s :: z -> exists t, s = SText t) ->
  exists kvs', add_all m (JDict 0 kvs) L = ROk (JDict 0 kvs') /\ dict_inv (P ++ L) kvs'.
Proof using.
  induction L as [|x L IH]; intros P kvs I N S O H AR; [exists kvs; rewrite app_nil_r; split; [reflexivity|exact I]|].
  assert (Ix : In x (P ++ x :: L)) by (apply in_or_app; right; left; reflexivity). assert (IP : forall y, In y P -> In y (P ++ x :: L)) by (intros y Iy; apply in_or_app; left; exact Iy).
  destruct (H x Ix) as (Nx & Vx & Tx).
  destruct (dict_step P kvs x I) as (kvs1 & E1 & I1).
  - apply Forall_app in O. tauto.
  - rewrite Forall_forall in O. apply O, Ix.
  - exact Nx.
  - intros J. apply NoDup_remove_2 in N. apply N, in_or_app. left. exact J.
  - intros y Iy. split; [|split; apply H, IP, Iy]. apply sorted_app_le in S as [_ S]. rewrite Forall_forall in S. specialize (S _ Iy). unfold sle, segs_less in S. destruct (Nat.ltb_spec (length x) (length y)) as [X|X]; [discriminate S|exact X].
  - exact Vx.
  - exact Tx.
  - intros y v v' vs s z Iy V E. eapply AR; [apply IP, Iy|exact Ix|exact V|exact E].
  - cbn [add_all]. unfold val_of in E1. rewrite E1. replace (P ++ x :: L) with ((P ++ [x]) ++ L) in * by (rewrite <- app_assoc; reflexivity). apply IH; assumption.
Qed.
End Dicts.
