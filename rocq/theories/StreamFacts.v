(** ParseStream offsets and ParseJsonStreams. *)
From Verif Require Import Base Strconv StrconvFacts SortedMap SortedMapFacts
  Utf8 Json SpecJson SpecRFC SpecText SpecPrint Printer Parser ParserFacts ParserFacts2 Gram RfcFacts PrintFacts PrintFacts2 TextFacts TruncFacts.
Open Scope Z_scope.

Lemma skipn_app_length {A} (x y : list A) : skipn (length x) (x ++ y) = y.
Proof. rewrite skipn_app, skipn_all, Nat.sub_diag. reflexivity. Qed.

(** ** Offsets *)

Lemma stream_bounds str off : (off <= length str)%nat ->
  match ParseStream str off with
  | SOk _ o => (off < o <= length str)%nat
  | SErr _ o => (off <= o <= length str)%nat
  | SPanic _ => True
  | SFuel => False
  end.
Proof.
  intros H. unfold ParseStream. pose proof (parse_suffix_good (skipn off str)) as G.
  pose proof (skipn_length off str) as L.
  destruct (parse_suffix (skipn off str)) as [v r|e r|p|]; try exact G.
  - apply ssuffix_length in G. lia.
  - apply suffix_length in G. lia.
Qed.

(** Offset 0 on the suffix, shifted. *)
Lemma stream_shift x y off : ParseStream (x ++ y) (length x + off) =
  match ParseStream y off with
  | SOk v o => SOk v (length x + o)
  | SErr e o => SErr e (length x + o)
  | SPanic p => SPanic p
  | SFuel => SFuel
  end.
Proof.
  unfold ParseStream.
  assert (skipn (length x + off) (x ++ y) = skipn off y) as ->.
  { rewrite skipn_app, (skipn_all2 x) by lia. cbn [app]. f_equal. lia. }
  pose proof (parse_suffix_good (skipn off y)) as G. pose proof (skipn_length off y) as L.
  destruct (parse_suffix (skipn off y)) as [v r|e r|p|]; try reflexivity.
  - apply ssuffix_length in G. rewrite app_length. f_equal. lia.
  - apply suffix_length in G. rewrite app_length. f_equal. lia.
Qed.

Lemma stream_gval b w t v ids rest : wsp w -> gval b t v ids -> NoDup ids -> (b = false -> rest_ok rest) ->
  forall x, ParseStream (x ++ w ++ t ++ rest) (length x) = SOk v (length x + length w + length t).
Proof.
  intros Hw G HN Hr x. unfold ParseStream. rewrite skipn_app_length.
  rewrite (gram_parse_suffix b w t v ids rest Hw G HN Hr). f_equal. rewrite !app_length. lia.
Qed.

Lemma gval_container b t v ids : gval b t v ids -> is_container v -> b = true /\ exists c r, t = c :: r /\ is_open c = true.
Proof.
  destruct 1 as [t v H|t s H|w H|t l ids H|w H|t ms nid kvs ids H H'].
  - destruct H as (_ & _ & _ & H). intros C. exfalso. unfold bare_value in H.
    repeat match type of H with context [if ?b then _ else _] => destruct b
      | context [match parse_int ?b with _ => _ end] => destruct (parse_int b)
      | context [match parse_float ?F ?b with _ => _ end] => destruct (parse_float F b) end;
      try discriminate; injection H as <-; exact C.
  - intros [].
  - intros _. split; [reflexivity|]. eexists _, _. split; reflexivity.
  - intros _. split; [reflexivity|]. eexists _, _. split; reflexivity.
  - intros _. split; [reflexivity|]. eexists _, _. split; reflexivity.
  - intros _. split; [reflexivity|]. eexists _, _. split; reflexivity.
Qed.

Lemma reads_as_container v v' : reads_as v v' -> is_container v -> is_container v'.
Proof. destruct 1; simpl; auto. Qed.

(** ** Streams *)

Definition no_open (w : bytes) : Prop := Forall (fun c => is_open c = false) w.

Lemma seek_no_open w : no_open w -> seek_open w = [].
Proof. induction 1 as [|c w H _ IH]; simpl; [reflexivity|]. rewrite H. exact IH. Qed.

Lemma seek_app w c r : no_open w -> is_open c = true -> seek_open (w ++ c :: r) = c :: r.
Proof. induction 1 as [|a w H _ IH]; intros Hc; simpl; [rewrite Hc|rewrite H]; auto. Qed.

Lemma seek_open_split s : exists w, s = w ++ seek_open s /\ no_open w
  /\ (match seek_open s with c :: _ => is_open c = true | [] => True end).
Proof.
  induction s as [|c s (w & E & H & HC)]; [exists []; repeat split; constructor|].
  cbn [seek_open]. destruct (is_open c) eqn:EO.
  - exists []. repeat split; [constructor|]. exact EO.
  - exists (c :: w). split; [cbn [app]; congruence|]. split; [constructor; assumption|exact HC].
Qed.

Lemma streams_fuel : forall n s vs nerr, (length s < n)%nat -> streams_loop n vs nerr s <> StFuel.
Proof.
  induction n as [|n IH]; intros s vs nerr Hn; [lia|]. cbn [streams_loop].
  destruct (seek_open_split s) as (w & E & _). destruct (seek_open s) as [|c s'].
  { destruct nerr, vs; discriminate. }
  assert (length (c :: s') <= length s)%nat as L by (rewrite E, app_length; lia).
  pose proof (parse_suffix_good (c :: s')) as G.
  destruct (parse_suffix (c :: s')) as [v r|e r|p|]; try discriminate; [| |contradiction].
  - apply ssuffix_length in G. apply IH. lia.
  - apply IH. cbn [length] in L. lia.
Qed.

Lemma streams_items : forall (items : list (bytes * bytes * json)) wend n acc,
  Forall (fun '(w, t, v) => no_open w /\ exists ids, gval true t v ids /\ NoDup ids /\ is_container v) items ->
  no_open wend ->
  (length (flat_map (fun '(w, t, _) => w ++ t) items ++ wend) < n)%nat ->
  streams_loop n acc 0 (flat_map (fun '(w, t, _) => w ++ t) items ++ wend)
  = StOk (rev acc ++ map snd items) 0.
Proof.
  induction items as [|[[w t] v] items IH]; intros wend n acc HF HW Hn.
  - cbn [flat_map app map] in *. destruct n as [|n]; [lia|]. cbn [streams_loop].
    rewrite seek_no_open by exact HW. rewrite app_nil_r. reflexivity.
  - inversion HF as [|? ? HX HF']; subst. cbv beta iota in HX. destruct HX as (Hw & ids & G & ND & C).
    destruct (gval_container _ _ _ _ G C) as (_ & c & r & Et & HO).
    destruct n as [|n]; [lia|]. cbn [flat_map] in *. rewrite <- !app_assoc in *. cbn [streams_loop].
    rewrite Et at 1. cbn [app]. rewrite (seek_app w) by assumption.
    replace (c :: r ++ flat_map (fun '(w, t, _) => w ++ t) items ++ wend)
      with ([] ++ t ++ flat_map (fun '(w, t, _) => w ++ t) items ++ wend) by (rewrite Et; reflexivity).
    rewrite (gram_parse_suffix true [] t v ids _ wsp_nil G ND ltac:(discriminate)).
    rewrite IH; try assumption.
    + cbn [rev map snd]. rewrite <- app_assoc. reflexivity.
    + rewrite !app_length in Hn. rewrite Et in Hn. cbn [length] in Hn. rewrite app_length. lia.
Qed.

(** The number of opening brackets. *)
Definition opens (s : bytes) : nat := length (filter is_open s).

Lemma opens_no w : no_open w -> opens w = 0%nat.
Proof. induction 1 as [|c w H _ IH]; [reflexivity|]. unfold opens in *. cbn [filter]. rewrite H. exact IH. Qed.

Lemma opens_app a b : opens (a ++ b) = (opens a + opens b)%nat.
Proof. unfold opens. rewrite filter_app, app_length. reflexivity. Qed.

Lemma streams_vs_nonempty : forall n s vs nerr, vs <> [] -> forall k, streams_loop n vs nerr s <> StErr k.
Proof.
  induction n as [|n IH]; intros s vs nerr Hv k; [discriminate|]. cbn [streams_loop].
  destruct (seek_open s) as [|c s'].
  - destruct nerr, vs; try discriminate. congruence.
  - destruct (parse_suffix (c :: s')) as [v r|e r|p|]; try discriminate.
    + apply IH. discriminate.
    + apply IH. exact Hv.
Qed.

(** An aggregated error: every position that could start a document failed. *)
Lemma streams_err : forall n s nerr k, (length s < n)%nat -> streams_loop n [] nerr s = StErr k ->
  (k = nerr + opens s)%nat /\
  forall a c b, s = a ++ c :: b -> is_open c = true -> exists e r, parse_suffix (c :: b) = PErr e r.
Proof.
  induction n as [|n IH]; intros s nerr k Hn H; [lia|]. cbn [streams_loop] in H.
  destruct (seek_open_split s) as (w & E & Hw & HO). destruct (seek_open s) as [|c0 s'].
  - rewrite app_nil_r in E. subst w. rewrite (opens_no s Hw).
    destruct nerr; [discriminate|]. injection H as <-. split; [lia|].
    intros a c b -> Hc. exfalso. apply Forall_app in Hw as [_ Hw]. inversion Hw; subst. congruence.
  - assert (length (c0 :: s') <= length s)%nat as L by (rewrite E, app_length; lia). cbn [length] in L.
    destruct (parse_suffix (c0 :: s')) as [v r|e r|p|] eqn:EP; try discriminate.
    + exfalso. eapply streams_vs_nonempty; [|exact H]. discriminate.
    + apply IH in H; [|lia]. destruct H as [-> HA]. split.
      * rewrite E, opens_app, (opens_no w Hw). unfold opens. cbn [filter]. rewrite HO. cbn [length]. lia.
      * intros a c b E2 Hc. rewrite E in E2.
        destruct (app_cut w (c0 :: s') a (c :: b) E2) as [(a2 & N & -> & E3)|(p2 & -> & E3)].
        -- exfalso. destruct a2 as [|x a2]; [congruence|]. cbn [app] in E3. injection E3 as <- _.
           apply Forall_app in Hw as [_ Hw]. inversion Hw; subst. congruence.
        -- destruct p2 as [|x p2]; cbn [app] in E3; injection E3 as <- E3.
           ++ subst b. eauto.
           ++ apply (HA p2 c b E3 Hc).
Qed.
