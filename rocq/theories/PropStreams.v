(** C12, for every input: what ParseJsonStreams makes of any byte string at all,
    in terms of the texts that Parse accepts (C54) and refuses (C55). *)
From Verif Require Import Base Strconv SpecFloat SpecFloatText FloatSyntax SortedMap SortedMapFacts Utf8 Json SpecJson SpecRFC SpecScalar SpecText SpecLenient SpecRefuse
  StrconvFacts ScalarFacts Parser ParserFacts ParserFacts2 Gram RfcFacts TextFacts LenientFacts RefuseFacts StreamFacts PropParse PropLenient PropRefuse.
Open Scope Z_scope.

Definition bracket (c : byte) : Prop := c = "["%byte \/ c = "{"%byte.

(** [splits s vs k o]: going through [s], one skips to the next opening
    bracket, takes the value that stands there if there is one and goes on behind
    it, and otherwise counts an error and goes on behind the bracket; [vs] are
    the values, [k] is the number of errors; at a text that makes Parse panic,
    all ends with this panic [o]. *)
Inductive splits : bytes -> list json -> nat -> option ppanic -> Prop :=
| sp_end w : no_bracket w -> splits w [] 0 None
| sp_value w c s v n vs k o : no_bracket w -> bracket c -> lenient_text (c :: s) v n -> splits (skipn n (c :: s)) vs k o ->
    splits (w ++ c :: s) (v :: vs) k o
| sp_wrong w c s e n vs k o : no_bracket w -> bracket c -> refused_text (c :: s) (Tells e) n -> splits s vs k o ->
    splits (w ++ c :: s) vs (S k) o
| sp_panic w c s p n : no_bracket w -> bracket c -> refused_text (c :: s) (Crashes p) n -> splits (w ++ c :: s) [] 0 (Some p).

Lemma open_iff c : is_open c = true <-> bracket c.
Proof. unfold is_open, bracket. rewrite orb_true_iff, !beq_eq. reflexivity. Qed.
Lemma no_open_iff w : no_open w <-> no_bracket w.
Proof.
  split; [|apply no_bracket_open]. intros H. unfold no_bracket. eapply Forall_impl; [|exact H]. cbn. intros c E.
  split; intros ->; discriminate E.
Qed.

Lemma suffix_value s v n : lenient_text s v n <-> parse_suffix s = POk v (skipn n s) /\ (n <= length s)%nat.
Proof.
  rewrite <- C54_language, parse_is. pose proof (parse_suffix_good s) as G. destruct (parse_suffix s) as [v' r|e r|p|]; split; try (intros H; discriminate H); try (intros [H _]; discriminate H).
  - intros [= -> <-]. split; [|lia]. apply ssuffix_length in G as L. destruct G as (x & _ & ->). f_equal.
    rewrite app_length. replace (length x + length r - length r)%nat with (length x) by lia. symmetry. apply skipn_app_length.
  - intros [[= -> ->] L]. f_equal. rewrite skipn_length. lia.
Qed.
Lemma suffix_error s e n : refused_text s (Tells e) n -> exists r, parse_suffix s = PErr e r.
Proof. rewrite <- C55_errors, parse_is. destruct (parse_suffix s) as [v' r|e' r|p|]; intros H; try discriminate H. injection H as -> _. eauto. Qed.
Lemma suffix_panic s p n : refused_text s (Crashes p) n -> parse_suffix s = PPanic p.
Proof.
  intros H. assert (X : Parse s = SPanic p) by (apply C55_panics; eauto). rewrite parse_is in X. destruct (parse_suffix s) as [v' r|e' r|p'|]; try discriminate X. injection X as ->. reflexivity.
Qed.

Definition outcome (vs : list json) (k : nat) (o : option ppanic) : streams_res :=
  match o with
  | Some p => StPanic p
  | None => match k, vs with S _, [] => StErr k | _, _ => StOk vs k end
  end.

Lemma streams_splits s vs k o : splits s vs k o ->
  forall n acc ne, (length s < n)%nat -> streams_loop n acc ne s = outcome (rev acc ++ vs) (ne + k) o.
Proof.
  induction 1 as [w W|w c s v m vs k o W C L _ IH|w c s e m vs k o W C R _ IH|w c s p m W C R]; intros n acc ne Hn;
    (destruct n as [|n]; [lia|]); cbn [streams_loop].
  - rewrite seek_no_open by (apply no_open_iff, W). rewrite app_nil_r, Nat.add_0_r. cbn [outcome].
    destruct ne; [reflexivity|]. destruct acc as [|a acc]; [reflexivity|]. destruct (rev (a :: acc)) eqn:E; [|reflexivity].
    apply (f_equal (@length _)) in E. rewrite rev_length in E. discriminate E.
  - rewrite seek_app by (try apply no_open_iff; try apply open_iff; assumption). apply suffix_value in L as [P Lm].
    pose proof (parse_suffix_good (c :: s)) as G. rewrite P in G |- *. apply ssuffix_length in G.
    rewrite app_length in Hn. rewrite IH by lia. cbn [rev]. rewrite <- app_assoc. reflexivity.
  - rewrite seek_app by (try apply no_open_iff; try apply open_iff; assumption). apply suffix_error in R as (r & P). rewrite P.
    rewrite app_length in Hn. cbn in Hn. rewrite IH by lia. f_equal. lia.
  - rewrite seek_app by (try apply no_open_iff; try apply open_iff; assumption). rewrite (suffix_panic _ _ _ R). reflexivity.
Qed.

Lemma splits_total : forall n s, (length s < n)%nat -> exists vs k o, splits s vs k o.
Proof.
  induction n as [|n IH]; intros s Hn; [lia|]. destruct (seek_open_split s) as (w & E & W & HC). apply no_open_iff in W.
  destruct (seek_open s) as [|c r].
  - rewrite app_nil_r in E. subst. eexists _, _, _. apply sp_end, W.
  - subst s. rewrite app_length in Hn. cbn in Hn. apply open_iff in HC. destruct (C55_every_text (c :: r)) as [(v & m & L)|([e|p] & m & R)].
    + destruct (IH (skipn m (c :: r))) as (vs & k & o & S).
      { pose proof L as L'. apply suffix_value in L' as [P _]. pose proof (parse_suffix_good (c :: r)) as G. rewrite P in G. apply ssuffix_length in G. cbn in G. lia. }
      eexists _, _, _. eapply sp_value; eassumption.
    + destruct (IH r) as (vs & k & o & S); [lia|]. eexists _, _, _. eapply sp_wrong; eassumption.
    + eexists _, _, _. eapply sp_panic; eassumption.
Qed.

(** Every input is split in a way, and what is returned is said by it: the
    values that are found, unless there are none and there were errors; then the
    errors. *)
Theorem C12_every_input s : exists vs k o, splits s vs k o.
Proof. apply (splits_total (S (length s))). lia. Qed.
Theorem C12_exact s vs k o : splits s vs k o ->
  ParseJsonStreams s = match o with
                       | Some p => StPanic p
                       | None => match k, vs with S _, [] => StErr k | _, _ => StOk vs k end
                       end.
Proof. intros H. unfold ParseJsonStreams. rewrite (streams_splits _ _ _ _ H) by lia. reflexivity. Qed.

(** There is one way only. *)
Theorem C12_one_way s vs k o vs' k' o' : splits s vs k o -> splits s vs' k' o' -> vs = vs' /\ k = k' /\ o = o'.
Proof.
  intros H. revert vs' k' o'. assert (U : forall w c r w' c' r', no_bracket w -> no_bracket w' -> bracket c -> bracket c' -> w ++ c :: r = w' ++ c' :: r' -> w = w' /\ c = c' /\ r = r').
  { intros w c r w' c' r' W W' C C' E. pose proof (seek_app w c r (proj2 (no_open_iff _) W) (proj2 (open_iff _) C)) as X.
    pose proof (seek_app w' c' r' (proj2 (no_open_iff _) W') (proj2 (open_iff _) C')) as X'. rewrite E, X' in X. injection X as <- <-. split; [|auto]. eapply app_inv_tail, E. }
  assert (N : forall w c r, no_bracket (w ++ c :: r) -> bracket c -> False).
  { intros w c r W C. apply Forall_app in W as [_ W]. inversion W as [|? ? [X Y] _]; subst. destruct C; auto. }
  induction H as [w W|w c s v m vs k o W C L _ IH|w c s e m vs k o W C R _ IH|w c s p m W C R]; intros vs' k' o' H'; inversion H' as [w' W' E|w' c' s' v' m' vs2 k2 o2 W' C' L' S' E|w' c' s' e' m' vs2 k2 o2 W' C' R' S' E|w' c' s' p' m' W' C' R' E]; subst;
    try solve [auto | exfalso; eapply N; eassumption];
    (destruct (U _ _ _ _ _ _ W' W C' C E) as (-> & -> & ->)).
  - destruct (C54_unambiguous _ _ _ _ _ L L') as [-> ->]. destruct (IH _ _ _ S') as (-> & -> & ->). auto.
  - destruct (C55_not_both _ _ _ _ _ L R').
  - destruct (C55_not_both _ _ _ _ _ L R').
  - destruct (C55_not_both _ _ _ _ _ L' R).
  - destruct (IH _ _ _ S') as (-> & -> & ->). auto.
  - destruct (C55_one_reason _ _ _ _ _ R R') as [? _]. discriminate.
  - destruct (C55_not_both _ _ _ _ _ L' R).
  - destruct (C55_one_reason _ _ _ _ _ R R') as [? _]. discriminate.
  - destruct (C55_one_reason _ _ _ _ _ R R') as [[= ->] _]. auto.
Qed.

(** A wrong text costs its opening bracket only: what is complete behind that
    bracket is found, also inside of it. *)
Example C12_recovers : splits (B "x[1 {b:2} y{a:1}") [JDict 0 [(B "b", JInt 2)]; JDict 0 [(B "a", JInt 1)]] 1 None.
Proof.
  apply (sp_wrong (B "x") "["%byte (B "1 {b:2} y{a:1}") EUnexpectedChar 3); [repeat constructor; discriminate|left; reflexivity|apply C55_errors; vm_compute; reflexivity|].
  apply (sp_value (B "1 ") "{"%byte (B "b:2} y{a:1}") _ 5); [repeat constructor; discriminate|right; reflexivity|apply C54_language; vm_compute; reflexivity|].
  apply (sp_value (B " y") "{"%byte (B "a:1}") _ 5); [repeat constructor; discriminate|right; reflexivity|apply C54_language; vm_compute; reflexivity|].
  apply sp_end. constructor.
Qed.

Print Assumptions C12_exact.
