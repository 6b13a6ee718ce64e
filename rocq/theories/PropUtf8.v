(** C70: UTF-8 in, UTF-8 out. *)
From Coq Require Import Lia List.
From Verif Require Import Base Strconv Json SpecJson SpecRFC SpecScalar SpecText SpecLenient SpecUtf8 SortedMap AccessFacts Printer Parser LenientFacts PropRoundtrip PropLenient Query SpecQueryText PropQuery PropQueryText.
Import ListNotations.
Open Scope Z_scope.

(** ** Facts about well-formed text *)

Definition ascii (c : byte) : Prop := bz c < 128.
Definition high (c : byte) : Prop := 128 <= bz c.

Lemma ascii_or_high c : ascii c \/ high c. Proof. unfold ascii, high. lia. Qed.

Lemma char_cases u : utf8_char u -> (exists c, u = [c] /\ ascii c) \/ (u <> [] /\ Forall high u).
Proof.
  intros H. inversion H as [cp u' U|]; subst.
  - inversion U; subst.
    + left. exists b. split; [reflexivity|exact H0].
    + right. split; [discriminate|]. unfold high. repeat constructor; lia.
    + right. split; [discriminate|]. unfold high. repeat constructor; lia.
  - right. split; [discriminate|]. unfold high. repeat constructor; lia.
Qed.

Lemma ascii_char c : ascii c -> utf8_char [c].
Proof. intros H. eapply uc_bmp, utf8_1, H. Qed.

Lemma ut_ascii c s : ascii c -> utf8_text s -> utf8_text (c :: s).
Proof. intros H S. apply (ut_cons [c] s (ascii_char c H) S). Qed.

Lemma ut_app a b : utf8_text a -> utf8_text b -> utf8_text (a ++ b).
Proof. intros A. induction A; intros Hb; [exact Hb|]. rewrite <- app_assoc. constructor; auto. Qed.

Lemma ut_all_ascii s : Forall ascii s -> utf8_text s.
Proof. induction 1; [constructor|apply ut_ascii; assumption]. Qed.

(* Text can be cut at every ASCII byte. *)
Lemma ut_cut a c b : ascii c -> utf8_text (a ++ c :: b) -> utf8_text a /\ utf8_text b.
Proof.
  intros Hc H. remember (a ++ c :: b) as s eqn:E. revert a E. induction H as [|u s U S IH]; intros a E; [destruct a; discriminate|].
  destruct (char_cases u U) as [(d & -> & Hd)|[Nu Fu]].
  - destruct a as [|x a]; cbn in E; injection E as <- E.
    + subst s. split; [constructor|exact S].
    + destruct (IH a E) as [A B]. split; [apply ut_ascii; assumption|exact B].
  - assert (X : exists a', a = u ++ a' /\ s = a' ++ c :: b).
    { clear U IH S. revert a E. induction u as [|d u IHu]; intros a E; [exists a; auto|]. inversion Fu as [|? ? Hd Fu']; subst.
      destruct a as [|x a]; cbn in E; injection E as <- E; [unfold ascii, high in *; lia|].
      destruct u as [|d' u]; [exists a; auto|]. destruct (IHu ltac:(discriminate) Fu' a E) as (a' & -> & ->). exists a'. auto. }
    destruct X as (a' & -> & E'). destruct (IH a' E') as [A B]. split; [constructor; assumption|exact B].
Qed.

Lemma ut_cut_app a c b : ascii c -> utf8_text a -> utf8_text b -> utf8_text (a ++ c :: b).
Proof. intros Hc A B. apply ut_app; [exact A|apply ut_ascii; assumption]. Qed.

Lemma ut_skip w s : Forall ascii w -> utf8_text (w ++ s) -> utf8_text s.
Proof. induction 1 as [|c w Hc _ IH]; intros H; [exact H|]. apply IH. apply (ut_cut [] c (w ++ s) Hc) in H. apply H. Qed.

Lemma ws_ascii w : rfc_ws w -> Forall ascii w.
Proof. intros H. eapply Forall_impl; [|exact H]. intros c Hc. unfold ascii. cbn in Hc. destruct Hc as [->|[->|[->| ->]]]; reflexivity. Qed.

Lemma delim_ascii c : delimiter c -> ascii c.
Proof. unfold delimiter, ascii. intros H. cbn in H. repeat (destruct H as [<-|H]; [reflexivity|]). destruct H. Qed.
Lemma quote_ascii c : quote c -> ascii c.
Proof. intros [->| ->]; reflexivity. Qed.

Lemma hex_ascii h n : hex_digit h n -> ascii h.
Proof. unfold hex_digit, ascii. lia. Qed.

(** ** Strings between quotes *)

Lemma odd_app a b : odd_run (a ++ b) = fold_left (fun x c => if beq c "\"%byte then negb x else false) b (odd_run a).
Proof. unfold odd_run. apply fold_left_app. Qed.

(* [pre]: the text so far; [p]: raw bytes of a character that has begun. *)
Lemma char_step q pre t u body us post : lib_char q t u -> odd_run pre = false -> no_high_escape (pre ++ t ++ body ++ post) ->
  forall p, utf8_text (p ++ t ++ body) ->
  (forall p', utf8_text (p' ++ body) -> utf8_text (p' ++ us)) -> utf8_text (p ++ u ++ us).
Proof.
  intros L O N p V K.
  assert (Bs : ascii "\"%byte) by reflexivity.
  assert (Fin : forall x, t = "\"%byte :: x -> Forall ascii x -> utf8_text u -> utf8_text (p ++ u ++ us)).
  { intros x -> Fx Vu. cbn in V. apply (ut_cut p _ _ Bs) in V as [Vp V]. apply ut_app; [exact Vp|]. apply ut_app; [exact Vu|].
    apply (K []). apply (ut_skip x); assumption. }
  inversion L; subst.
  - change (utf8_text (p ++ [c] ++ us)). rewrite app_assoc. apply K. rewrite <- app_assoc. exact V.
  - eapply Fin; [reflexivity|repeat constructor|apply ut_all_ascii; repeat constructor].
  - eapply Fin; [reflexivity|repeat constructor|apply ut_all_ascii; repeat constructor].
  - eapply Fin; [reflexivity|repeat constructor|apply ut_all_ascii; repeat constructor].
  - eapply Fin; [reflexivity|repeat constructor|apply ut_all_ascii; repeat constructor].
  - eapply Fin; [reflexivity|repeat constructor|apply ut_all_ascii; repeat constructor].
  - cbn in V. apply (ut_cut p _ _ Bs) in V as [Vp V]. apply ut_app; [exact Vp|]. change (utf8_text (([] ++ [e]) ++ us)). apply K. exact V.
  - eapply Fin; [reflexivity| |rewrite <- (app_nil_r u); eapply ut_cons; [eapply uc_bmp; eassumption|constructor]].
    repeat constructor; try reflexivity; eapply hex_ascii; eassumption.
  - eapply Fin; [reflexivity| |].
    { repeat constructor; try reflexivity; eapply hex_ascii; eassumption. }
    rewrite <- (app_nil_r [xef; xbf; xbd]). eapply ut_cons; [|constructor]. eapply uc_bmp with (cp := 65533).
    apply (utf8_3 _ _ _ _ 15 63 61); vm_compute; intuition (discriminate || reflexivity).
  - eapply Fin; [reflexivity| |].
    { repeat constructor; try reflexivity; eapply hex_ascii; eassumption. }
    apply ut_all_ascii. constructor; [|constructor]. unfold ascii.
    assert (n8 : a < 8) by (eapply (N pre h1 a (h2 :: body ++ post)); [reflexivity|exact O|assumption]).
    assert (0 <= b < 16) by (unfold hex_digit in *; lia). lia.
Qed.

Lemma hex_not_backslash h n : hex_digit h n -> beq h "\"%byte = false.
Proof. intros H. destruct (beq_spec h "\"%byte) as [->|]; [|reflexivity]. exfalso. unfold hex_digit in H. change (bz "\"%byte) with 92 in H. lia. Qed.

Lemma char_even q t u pre : lib_char q t u -> odd_run pre = false -> odd_run (pre ++ t) = false.
Proof.
  intros L O. rewrite odd_app, O. inversion L; subst; cbn [fold_left]; try reflexivity.
  - destruct (beq_spec c "\"%byte); [congruence|reflexivity].
  - cbn. destruct (beq e "\"%byte); reflexivity.
  - cbn. repeat match goal with H : hex_digit _ _ |- _ => rewrite (hex_not_backslash _ _ H); clear H end. reflexivity.
  - cbn. repeat match goal with H : hex_digit _ _ |- _ => rewrite (hex_not_backslash _ _ H); clear H end. reflexivity.
  - cbn. repeat match goal with H : hex_digit _ _ |- _ => rewrite (hex_not_backslash _ _ H); clear H end. reflexivity.
Qed.

Lemma chars_valid q body u : lib_chars q body u -> forall pre post p, odd_run pre = false -> no_high_escape (pre ++ body ++ post) ->
  utf8_text (p ++ body) -> utf8_text (p ++ u).
Proof.
  induction 1 as [|t u ts us L _ IH]; intros pre post p O N V; [exact V|].
  rewrite <- app_assoc in N. eapply (char_step q pre t u ts us post); [exact L|exact O|exact N|exact V|].
  intros p' V'. apply (IH (pre ++ t) post p'); [eapply char_even; eassumption|rewrite <- app_assoc; exact N|exact V'].
Qed.

Lemma unfinished_valid q body u : unfinished q body u -> forall pre post p, odd_run pre = false -> no_high_escape (pre ++ body ++ post) ->
  utf8_text (p ++ body) -> utf8_text (p ++ u).
Proof.
  induction 1 as [|t u L _|t u ts us L _ _ IH]; intros pre post p O N V; [exact V| |].
  - rewrite <- (app_nil_r u). eapply (char_step q pre t u [] [] post); [exact L|exact O|exact N|rewrite app_nil_r; exact V|].
    intros p' V'. exact V'.
  - rewrite <- app_assoc in N. eapply (char_step q pre t u ts us post); [exact L|exact O|exact N|exact V|].
    intros p' V'. apply (IH (pre ++ t) post p'); [eapply char_even; eassumption|rewrite <- app_assoc; exact N|exact V'].
Qed.

(** ** Parse *)

Lemma scalar_value v : (forall s, v <> JString s) -> ~ is_container v -> utf8_value v.
Proof.
  intros H C. split.
  - intros s S. inversion S; subst; [exfalso; eapply H; reflexivity|destruct C; exact Logic.I|destruct C; exact Logic.I].
  - intros nid kvs k x S. inversion S; subst; destruct C; exact Logic.I.
Qed.
Lemma string_value s : utf8_text s -> utf8_value (JString s).
Proof.
  intros H. split.
  - intros s' S. inversion S; subst. exact H.
  - intros nid kvs k x S. inversion S.
Qed.
Lemma array_value l : Forall utf8_value l -> utf8_value (JArray l).
Proof.
  intros F. rewrite Forall_forall in F. split.
  - intros s S. inversion S as [|v l' I S' |]; subst. apply (proj1 (F v I)), S'.
  - intros nid kvs k x S J. inversion S as [|v l' I S' |]; subst. apply (proj2 (F v I) _ _ _ _ S' J).
Qed.
Lemma dict_value nid kvs : Forall (fun kv => utf8_text (fst kv) /\ utf8_value (snd kv)) kvs -> utf8_value (JDict nid kvs).
Proof.
  intros F. rewrite Forall_forall in F. split.
  - intros s S. inversion S as [| |k v n m I S']; subst. apply (proj1 (proj2 (F _ I))), S'.
  - intros n m k x S J. inversion S; subst; [apply (proj1 (F _ J))|].
    match goal with I : In (_, ?v) kvs, S1 : subvalue _ ?v |- _ => apply (proj2 (proj2 (F _ I)) _ _ _ _ S1 J) end.
Qed.

Lemma word_utf8 t v : word_value t v -> utf8_text t -> utf8_value v.
Proof. intros W U. inversion W; subst; first [apply string_value; exact U|apply scalar_value; [discriminate|intros []]]. Qed.

Lemma last_member_in k ms v : last_member k ms = Some v -> In (k, v) ms.
Proof.
  induction ms as [|[k' x] ms IH]; [discriminate|]. cbn [last_member]. destruct (last_member k ms) as [y|]; intros E; [right; apply IH; exact E|].
  destruct (bseq_spec k k') as [->|]; [|discriminate]. injection E as ->. left. reflexivity.
Qed.

Lemma members_in ms nid kvs : members_value ms nid kvs -> forall k v, In (k, v) kvs -> In (k, v) ms.
Proof.
  intros (_ & _ & Ki & Lk & Ln) k v I. apply (lookup_in kvs k v Ki) in I. apply last_member_in.
  rewrite <- Lk; [exact I|]. intros ->. congruence.
Qed.

Lemma ut_trim w t : Forall ascii w -> utf8_text (t ++ w) -> utf8_text t.
Proof.
  intros F. destruct F as [|c w Hc _]; intros H; [rewrite app_nil_r in H; exact H|]. apply (ut_cut t c w Hc) in H. apply H.
Qed.

Definition ok_for {A} (P : A -> Prop) (t : bytes) (v : A) : Prop :=
  forall pre post, no_high_escape (pre ++ t ++ post) -> utf8_text t -> P v.

Lemma odd_quote pre q : quote q -> odd_run (pre ++ [q]) = false.
Proof. intros Q. rewrite odd_app. destruct Q as [->| ->]; reflexivity. Qed.

(* Members of a dict and elements of an array. *)
Definition member_utf8 (kv : bytes * json) : Prop := utf8_text (fst kv) /\ utf8_value (snd kv).

Lemma name_utf8 kt k pre post : name kt k -> no_high_escape (pre ++ kt ++ post) -> utf8_text kt -> utf8_text k.
Proof.
  intros N E U. inversion N as [q body u Q L|]; subst; [|exact U].
  pose proof (quote_ascii q Q) as Aq. apply (ut_cut [] q) in U as [_ U]; [|exact Aq]. apply (ut_cut body q []) in U as [U _]; [|exact Aq].
  apply (chars_valid q body k L (pre ++ [q]) (q :: post) []); [apply odd_quote, Q| |exact U].
  rewrite <- app_assoc. cbn. cbn in E. rewrite <- app_assoc in E. exact E.
Qed.

Lemma values_utf8 :
  (forall c t v ids, lval c t v ids -> ok_for utf8_value t v) /\
  (forall c t l ids, larray c t l ids -> ok_for (Forall utf8_value) t l) /\
  (forall c t ms ids, ldict c t ms ids -> ok_for (Forall member_utf8) t ms).
Proof.
  assert (Reg : forall (a b c : bytes), a ++ b ++ c = (a ++ b) ++ c) by (intros; apply app_assoc).
  apply len_ind.
  - intros t v _ _ _ W pre post _ U. eapply word_utf8; eassumption.
  - intros q body u Q L pre post E U. apply string_value. eapply (name_utf8 (q :: body ++ [q]) u pre post); [constructor; assumption|exact E|exact U].
  - intros q body u Q L pre post E U. apply string_value. pose proof (quote_ascii q Q) as Aq. apply (ut_cut [] q) in U as [_ U]; [|exact Aq].
    apply (unfinished_valid q body u L (pre ++ [q]) post []); [apply odd_quote, Q| |exact U]. rewrite <- app_assoc. exact E.
  - intros c t l ids _ IH pre post E U. apply array_value. apply (IH (pre ++ ["["%byte]) post); [rewrite <- app_assoc; exact E|].
    apply (ut_cut [] "["%byte) in U; [apply U|reflexivity].
  - intros c t ms nid kvs ids _ IH M pre post E U. apply dict_value. apply Forall_forall. intros [k v] I.
    assert (F : Forall member_utf8 ms).
    { apply (IH (pre ++ ["{"%byte]) post); [rewrite <- app_assoc; exact E|]. apply (ut_cut [] "{"%byte) in U; [apply U|reflexivity]. }
    rewrite Forall_forall in F. apply (F (k, v)). eapply members_in; eassumption.
  - intros pre post _ _. constructor.
  - intros w _ pre post _ _. constructor.
  - intros w1 t w2 v ids W1 _ IH W2 pre post E U. constructor; [|constructor].
    apply ut_skip in U; [|apply ws_ascii, W1]. rewrite Reg in U. apply (ut_cut (t ++ w2) "]"%byte []) in U as [U _]; [|reflexivity].
    apply ut_trim in U; [|apply ws_ascii, W2].
    apply (IH (pre ++ w1) (w2 ++ "]"%byte :: post)); [|exact U].
    rewrite <- !app_assoc in *. exact E.
  - intros c w1 t w2 v ids t' l ids' W1 _ IH W2 _ IH' pre post E U.
    apply ut_skip in U; [|apply ws_ascii, W1]. rewrite Reg in U. apply (ut_cut (t ++ w2) ","%byte t') in U as [U U']; [|reflexivity].
    apply ut_trim in U; [|apply ws_ascii, W2]. constructor.
    + apply (IH (pre ++ w1) (w2 ++ ","%byte :: t' ++ post)); [|exact U]. rewrite <- !app_assoc in *. exact E.
    + apply (IH' (pre ++ w1 ++ t ++ w2 ++ [","%byte]) post); [|exact U']. rewrite <- !app_assoc in *. exact E.
  - intros pre post _ _. constructor.
  - intros w _ pre post _ _. constructor.
  - intros w1 kt k w2 w3 t w4 v ids W1 N W2 W3 _ IH W4 pre post E U.
    apply ut_skip in U; [|apply ws_ascii, W1]. rewrite Reg in U. apply (ut_cut (kt ++ w2) ":"%byte) in U as [Uk U]; [|reflexivity].
    apply ut_trim in Uk; [|apply ws_ascii, W2]. apply ut_skip in U; [|apply ws_ascii, W3]. rewrite Reg in U.
    apply (ut_cut (t ++ w4) "}"%byte []) in U as [U _]; [|reflexivity]. apply ut_trim in U; [|apply ws_ascii, W4].
    constructor; [|constructor]. split; cbn [fst snd].
    + apply (name_utf8 kt k (pre ++ w1) (w2 ++ ":"%byte :: w3 ++ t ++ w4 ++ "}"%byte :: post) N); [|exact Uk].
      rewrite <- !app_assoc in *. cbn in *. rewrite <- !app_assoc in *. exact E.
    + apply (IH (pre ++ w1 ++ kt ++ w2 ++ ":"%byte :: w3) (w4 ++ "}"%byte :: post)); [|exact U].
      rewrite <- !app_assoc in *. cbn in *. rewrite <- !app_assoc in *. exact E.
  - intros c w1 kt k w2 w3 t w4 v ids t' ms ids' W1 N W2 W3 _ IH W4 _ IH' pre post E U.
    apply ut_skip in U; [|apply ws_ascii, W1]. rewrite Reg in U. apply (ut_cut (kt ++ w2) ":"%byte) in U as [Uk U]; [|reflexivity].
    apply ut_trim in Uk; [|apply ws_ascii, W2]. apply ut_skip in U; [|apply ws_ascii, W3]. rewrite Reg in U.
    apply (ut_cut (t ++ w4) ","%byte t') in U as [U U']; [|reflexivity]. apply ut_trim in U; [|apply ws_ascii, W4].
    constructor; [split; cbn [fst snd]|].
    + apply (name_utf8 kt k (pre ++ w1) (w2 ++ ":"%byte :: w3 ++ t ++ w4 ++ ","%byte :: t' ++ post) N); [|exact Uk].
      rewrite <- !app_assoc in *. cbn in *. rewrite <- !app_assoc in *. exact E.
    + apply (IH (pre ++ w1 ++ kt ++ w2 ++ ":"%byte :: w3) (w4 ++ ","%byte :: t' ++ post)); [|exact U].
      rewrite <- !app_assoc in *. cbn in *. rewrite <- !app_assoc in *. exact E.
    + apply (IH' (pre ++ w1 ++ kt ++ w2 ++ ":"%byte :: w3 ++ t ++ w4 ++ [","%byte]) post); [|exact U'].
      rewrite <- !app_assoc in *. cbn in *. rewrite <- !app_assoc in *. exact E.
Qed.

(* The text of a value, cut out of a document. *)
Lemma complete_end c t v ids : lval c t v ids -> c = true -> (exists t0 d, t = t0 ++ [d] /\ ascii d) \/ (forall d t', t = d :: t' -> ~ quote d /\ ~ bracket d).
Proof.
  assert (Sn : forall (x : byte) a b d, x :: a ++ b :: d = (x :: a) ++ b :: d) by reflexivity.
  intros L -> . inversion L as [t0 v0 Ne Bt Hd W|q body u Q Lc| |c0 t0 l ids0 A|c0 t0 ms nid kvs ids0 D M]; subst.
  - right. exact Hd.
  - left. exists (q :: body), q. split; [reflexivity|apply quote_ascii, Q].
  - left. clear L. assert (X : exists t1, t0 = t1 ++ ["]"%byte]).
    { remember true as c eqn:Ec. induction A; try discriminate.
      - exists w. reflexivity.
      - exists (w1 ++ t ++ w2). rewrite <- !app_assoc. reflexivity.
      - destruct (IHA Ec) as [t1 ->]. exists (w1 ++ t ++ w2 ++ ","%byte :: t1). rewrite <- !app_assoc. reflexivity. }
    destruct X as [t1 ->]. exists ("["%byte :: t1), "]"%byte. split; reflexivity.
  - left. clear L M. assert (X : exists t1, t0 = t1 ++ ["}"%byte]).
    { remember true as c eqn:Ec. induction D; try discriminate.
      - exists w. reflexivity.
      - exists (w1 ++ kt ++ w2 ++ ":"%byte :: w3 ++ t ++ w4). rewrite <- !app_assoc. cbn. rewrite <- !app_assoc. reflexivity.
      - destruct (IHD Ec) as [t1 ->]. exists (w1 ++ kt ++ w2 ++ ":"%byte :: w3 ++ t ++ w4 ++ ","%byte :: t1). rewrite <- !app_assoc. cbn. rewrite <- !app_assoc. reflexivity. }
    destruct X as [t1 ->]. exists ("{"%byte :: t1), "}"%byte. split; reflexivity.
Qed.

(** Parsing well-formed UTF-8 without escapes of single bytes above \x7f gives
    strings and member names that are well-formed UTF-8 only. *)
Theorem C70_parse s v o : utf8_text s -> no_high_escape s -> Parse s = SOk v o -> utf8_value v.
Proof.
  intros U E P. apply C54_language in P as (w & c & t & ids & rest & -> & W & L & _ & [Fc Fw] & _).
  apply (proj1 values_utf8 c t v ids L w rest E). apply ut_skip in U; [|apply ws_ascii, W].
  destruct rest as [|d r]; [rewrite app_nil_r in U; exact U|].
  destruct c; [|discriminate (Fc eq_refl)]. destruct (complete_end _ _ _ _ L eq_refl) as [(t0 & d0 & -> & Hd)|Hw].
  - rewrite <- app_assoc in U. cbn in U. apply (ut_cut t0 d0 (d :: r) Hd) in U as [U _]. apply ut_app; [exact U|apply ut_all_ascii; repeat constructor; exact Hd].
  - destruct (lval_head _ _ _ _ L) as (x & t' & -> & _). destruct (Hw x t' eq_refl) as [Nq Nb].
    pose proof (Fw x t' eq_refl Nq Nb d r eq_refl) as Dd. apply (ut_cut (x :: t') d r (delim_ascii d Dd)) in U. apply U.
Qed.

(** ** Printing *)

Lemma ut_iff a c b : ascii c -> utf8_text (a ++ c :: b) <-> utf8_text a /\ utf8_text b.
Proof. intros Hc. split; [apply ut_cut, Hc|]. intros [A B]. apply ut_cut_app; assumption. Qed.
Lemma ut_cons_iff c b : ascii c -> utf8_text (c :: b) <-> utf8_text b.
Proof. intros Hc. pose proof (ut_iff [] c b Hc) as H. cbn in H. rewrite H. split; [tauto|]. intros B. split; [constructor|exact B]. Qed.
Lemma ut_pre_iff w s : Forall ascii w -> utf8_text (w ++ s) <-> utf8_text s.
Proof. intros F. split; [apply ut_skip, F|]. intros H. apply ut_app; [apply ut_all_ascii, F|exact H]. Qed.
Lemma ut_post_iff w s : Forall ascii w -> utf8_text (s ++ w) <-> utf8_text s.
Proof. intros F. split; [apply ut_trim, F|]. intros H. apply ut_app; [exact H|apply ut_all_ascii, F]. Qed.

Lemma escape_ascii c : ascii c -> exists d r, escape_char c = d :: r /\ ascii d /\ Forall ascii r.
Proof.
  intros Hc. assert (F : Forall ascii (escape_char c) /\ escape_char c <> []).
  { revert Hc. unfold ascii. destruct c; intros Hc; try (exfalso; vm_compute in Hc; discriminate Hc); (split; [repeat constructor|discriminate]). }
  destruct (escape_char c) as [|d r]; [destruct F; congruence|]. exists d, r. destruct F as [F _]. inversion F. auto.
Qed.
Lemma escape_high c : high c -> escape_char c = [c].
Proof. unfold high. destruct c; intros Hc; try (exfalso; vm_compute in Hc; exact (Hc eq_refl)); reflexivity. Qed.
Lemma escape_high_all s : Forall high s -> flat_map escape_char s = s.
Proof. induction 1 as [|c s Hc _ IH]; [reflexivity|]. cbn [flat_map]. rewrite (escape_high c Hc), IH. reflexivity. Qed.

Lemma escape_valid s : utf8_text (flat_map escape_char s) <-> utf8_text s.
Proof.
  split.
  - assert (G : forall p, utf8_text (p ++ flat_map escape_char s) -> utf8_text (p ++ s)); [|apply (G [])].
    induction s as [|c s IH]; intros p H; [exact H|]. destruct (ascii_or_high c) as [Hc|Hc]; cbn [flat_map] in H.
    + destruct (escape_ascii c Hc) as (d & r & E & Hd & Fr). rewrite E in H. cbn in H. apply (ut_cut p d _ Hd) in H as [Hp H].
      apply ut_cut_app; [exact Hc|exact Hp|]. apply (IH []). apply (ut_skip r); assumption.
    + rewrite (escape_high c Hc) in H. change (c :: s) with ([c] ++ s). rewrite app_assoc. apply IH. rewrite <- app_assoc. exact H.
  - intros H. induction H as [|u s U _ IH]; [constructor|]. rewrite flat_map_app. destruct (char_cases u U) as [(c & -> & Hc)|[_ Fu]].
    + cbn [flat_map]. rewrite app_nil_r. destruct (escape_ascii c Hc) as (d & r & -> & Hd & Fr). apply ut_app; [apply ut_all_ascii; constructor; assumption|exact IH].
    + rewrite escape_high_all by exact Fu. constructor; assumption.
Qed.

Lemma quote_valid s : utf8_text (quote_string s) <-> utf8_text s.
Proof.
  unfold quote_string. cbn [app]. rewrite ut_cons_iff by reflexivity. rewrite ut_post_iff by (repeat constructor). apply escape_valid.
Qed.

Lemma digit_byte_ascii d : 0 <= d < 10 -> ascii (digit_byte d).
Proof. intros H. unfold ascii, digit_byte. rewrite bz_zb; lia. Qed.
Lemma fmt_digits_ascii fuel : forall n acc, Forall ascii acc -> Forall ascii (fmt_digits fuel n acc).
Proof.
  induction fuel as [|k IH]; intros n acc F; [exact F|]. cbn [fmt_digits].
  assert (Fa : Forall ascii (digit_byte (n mod 10) :: acc)) by (constructor; [apply digit_byte_ascii, Z.mod_pos_bound; lia|exact F]).
  destruct (n <? 10); [exact Fa|apply IH, Fa].
Qed.
Lemma format_uint_ascii n : Forall ascii (format_uint n).
Proof. apply fmt_digits_ascii. constructor. Qed.
Lemma format_int_ascii z : Forall ascii (format_int z).
Proof. unfold format_int. destruct (z <? 0); [constructor; [reflexivity|]|]; apply format_uint_ascii. Qed.
Lemma zeros_ascii n : Forall ascii (zeros n).
Proof. unfold zeros. induction (Z.to_nat n); constructor; [reflexivity|assumption]. Qed.
Lemma layout_ascii d j : Forall ascii (layout_f d j).
Proof.
  unfold layout_f. pose proof (format_uint_ascii d) as F. destruct (0 <=? j); [apply Forall_app; split; [exact F|apply zeros_ascii]|].
  destruct (0 <? _).
  - rewrite <- (firstn_skipn (Z.to_nat (Z.of_nat (length (format_uint d)) + j)) (format_uint d)) in F. apply Forall_app in F as [F1 F2].
    apply Forall_app. split; [exact F1|]. constructor; [reflexivity|exact F2].
  - repeat (constructor; [reflexivity|]). apply Forall_app. split; [apply zeros_ascii|exact F].
Qed.
Lemma format_float_ascii F f : Forall ascii (format_float F f).
Proof.
  destruct f as [|[]|neg m e]; try (repeat constructor). cbn [format_float]. apply Forall_app. split; [destruct neg; repeat constructor|].
  destruct (m =? 0); [repeat constructor|]. destruct (shortest F m e) as [d j]. apply layout_ascii.
Qed.
Lemma float_string_ascii f bit : Forall ascii (float_string f bit).
Proof. unfold float_string. destruct (bit =? 32); apply format_float_ascii. Qed.

(* The value's strings, level by level. *)
Lemma array_value_iff l : utf8_value (JArray l) <-> Forall utf8_value l.
Proof.
  split; [|apply array_value]. intros [A B]. apply Forall_forall. intros v I. split.
  - intros s S. apply A. eapply sub_elem; eassumption.
  - intros nid kvs k x S J. apply (B nid kvs k x); [eapply sub_elem; eassumption|exact J].
Qed.
Lemma dict_value_iff nid kvs : utf8_value (JDict nid kvs) <-> Forall (fun kv => utf8_text (fst kv) /\ utf8_value (snd kv)) kvs.
Proof.
  split; [|apply dict_value]. intros [A B]. apply Forall_forall. intros [k v] I. split; [exact (B nid kvs k v (sub_refl _) I)|]. split.
  - intros s S. apply A. eapply sub_member; eassumption.
  - intros n m k' x S J. apply (B n m k' x); [eapply sub_member; eassumption|exact J].
Qed.
Lemma string_value_iff s : utf8_value (JString s) <-> utf8_text s.
Proof. split; [|apply string_value]. intros [A _]. apply A, sub_refl. Qed.

Lemma ascii_iff t v : Forall ascii t -> utf8_value v -> utf8_text t <-> utf8_value v.
Proof. intros F H. split; intros _; [exact H|apply ut_all_ascii, F]. Qed.

Lemma go_elems (f : json -> bytes) (sep : bytes) l : Forall (fun v => utf8_text (f v) <-> utf8_value v) l ->
  forall idx, utf8_text ((fix go (idx : nat) (l : list json) : bytes :=
              match l with
              | [] => []
              | v :: l' => (if Nat.ltb 0 idx then [","%byte] else []) ++ f v ++ go (S idx) l'
              end) idx l) <-> Forall utf8_value l.
Proof.
  induction 1 as [|v l Hv _ IH]; intros idx; [split; constructor|].
  rewrite ut_pre_iff by (destruct (0 <? idx)%nat; repeat constructor). rewrite Forall_cons_iff, <- Hv, <- (IH (S idx)).
  destruct l as [|v' l].
  - rewrite app_nil_r. split; [intros H; split; [exact H|constructor]|tauto].
  - cbn [Nat.ltb Nat.leb app]. rewrite ut_iff, ut_cons_iff by reflexivity. reflexivity.
Qed.

Lemma go_members (e : bytes -> json -> bytes) (go : nat -> list (bytes * json) -> bytes) kvs :
  (forall idx, go idx [] = []) ->
  (forall idx k v l, go idx ((k, v) :: l) = (if Nat.ltb 0 idx then [","%byte] else []) ++ e k v ++ go (S idx) l) ->
  Forall (fun kv => utf8_text (e (fst kv) (snd kv)) <-> utf8_text (fst kv) /\ utf8_value (snd kv)) kvs ->
  forall idx, utf8_text (go idx kvs) <-> Forall (fun kv => utf8_text (fst kv) /\ utf8_value (snd kv)) kvs.
Proof.
  intros E0 E1. induction 1 as [|[k v] l Hv _ IH]; intros idx; [rewrite E0; split; constructor|].
  rewrite E1. rewrite ut_pre_iff by (destruct (0 <? idx)%nat; repeat constructor). rewrite Forall_cons_iff. cbn [fst snd] in *. rewrite <- Hv, <- (IH (S idx)).
  destruct l as [|[k' v'] l].
  - rewrite E0, app_nil_r. split; [intros H; split; [exact H|constructor]|tauto].
  - rewrite E1. cbn [Nat.ltb Nat.leb app]. rewrite ut_iff, ut_cons_iff by reflexivity. reflexivity.
Qed.

Lemma key_text_iff s : utf8_text (""""%byte :: s ++ [""""%byte; ":"%byte]) <-> utf8_text s.
Proof. rewrite ut_cons_iff by reflexivity. apply ut_post_iff. repeat constructor. Qed.

Lemma cut_at a c b (P Q : Prop) : ascii c -> (utf8_text a <-> P) -> (utf8_text b <-> Q) -> utf8_text (a ++ c :: b) <-> P /\ Q.
Proof. intros Hc HP HQ. rewrite ut_iff by exact Hc. tauto. Qed.

Lemma build_valid v : utf8_text (build_string v) <-> utf8_value v.
Proof.
  induction v as [|x|z|f bit|s|l IH|nid kvs IH|n] using json_ind'; cbn [build_string].
  - apply ascii_iff; [repeat constructor|apply scalar_value; [discriminate|intros []]].
  - apply ascii_iff; [destruct x; repeat constructor|apply scalar_value; [discriminate|intros []]].
  - apply ascii_iff; [apply format_int_ascii|apply scalar_value; [discriminate|intros []]].
  - apply ascii_iff; [apply float_string_ascii|apply scalar_value; [discriminate|intros []]].
  - rewrite quote_valid, string_value_iff. reflexivity.
  - rewrite array_value_iff. cbn [app]. rewrite ut_cons_iff by reflexivity. rewrite ut_post_iff by repeat constructor.
    apply (go_elems build_string [] l IH 0%nat).
  - rewrite dict_value_iff. cbn [app]. rewrite ut_cons_iff by reflexivity. rewrite ut_pre_iff.
    2: { destruct (0 <? nid); [|constructor]. apply Forall_app. split; [repeat constructor|]. constructor; [reflexivity|]. apply format_int_ascii. }
    rewrite ut_post_iff by repeat constructor.
    apply (go_members (fun k v => quote_string k ++ [":"%byte] ++ build_string v)).
    + reflexivity.
    + intros idx k v l. rewrite <- !app_assoc. reflexivity.
    + eapply Forall_impl; [|exact IH]. intros [k v] Hv. cbn [fst snd app] in *. apply cut_at; [reflexivity|apply quote_valid|exact Hv].
  - apply ascii_iff; [|apply scalar_value; [discriminate|intros []]]. unfold ptr_string. cbn [app]. constructor; [reflexivity|]. apply Forall_app. split; [apply format_int_ascii|repeat constructor].
Qed.

Lemma tabs_ascii n : Forall ascii (tabs n).
Proof. induction n; [constructor|]. cbn [tabs app]. repeat (constructor; [reflexivity|]). assumption. Qed.

Lemma pretty_valid v : forall level, utf8_text (pretty_string level v) <-> utf8_value v.
Proof.
  induction v as [|x|z|f bit|s|l IH|nid kvs IH|n] using json_ind'; intros level;
    try (cbn [pretty_string]; rewrite ut_pre_iff by apply tabs_ascii; apply build_valid).
  - cbn [pretty_string]. rewrite array_value_iff, ut_pre_iff by apply tabs_ascii. cbn [app]. rewrite ut_cons_iff by reflexivity.
    rewrite app_assoc. rewrite ut_post_iff by repeat constructor.
    rewrite ut_post_iff by (destruct l; [constructor|constructor; [reflexivity|apply tabs_ascii]]).
    apply (go_elems (fun v => x0a :: pretty_string (level + 1) v) [] l).
    eapply Forall_impl; [|exact IH]. intros v Hv. rewrite ut_cons_iff by reflexivity. apply Hv.
  - cbn [pretty_string]. rewrite dict_value_iff, ut_pre_iff by apply tabs_ascii. cbn [app]. rewrite ut_cons_iff by reflexivity.
    rewrite app_assoc. rewrite ut_post_iff by repeat constructor.
    rewrite ut_post_iff by (destruct kvs; [constructor|constructor; [reflexivity|apply tabs_ascii]]).
    apply (go_members (fun k v => (x0a :: tabs level ++ [" "%byte; " "%byte]) ++ (""""%byte :: k ++ [""""%byte; ":"%byte]) ++
      (match v with JDict _ _ | JArray _ => [x0a] ++ pretty_string (level + 2) v | _ => [" "%byte] ++ build_string v end))).
    + reflexivity.
    + intros idx k v l. cbn [app]. rewrite <- !app_assoc. cbn [app]. rewrite <- !app_assoc. reflexivity.
    + eapply Forall_impl; [|exact IH]. intros [k v] Hv. cbn [fst snd] in *. rewrite ut_pre_iff.
      2: { constructor; [reflexivity|]. apply Forall_app. split; [apply tabs_ascii|repeat constructor]. }
      assert (G : forall d t, ascii d -> utf8_text t <-> utf8_value v -> utf8_text ((""""%byte :: k ++ [""""%byte; ":"%byte]) ++ d :: t) <-> utf8_text k /\ utf8_value v).
      { intros d t Hd Ht. rewrite ut_iff by exact Hd. rewrite key_text_iff, Ht. reflexivity. }
      destruct v; cbn [app]; (apply G; [reflexivity|]); first [apply Hv|apply build_valid].
Qed.

(** String() and PrettyString() are well-formed UTF-8 exactly for values whose
    strings and member names are. *)
Theorem C70_string v : utf8_text (String_ v) <-> utf8_value v.
Proof. apply build_valid. Qed.
Theorem C70_pretty_string v : utf8_text (PrettyString v) <-> utf8_value v.
Proof. apply pretty_valid. Qed.

(** ** Printed text has no escapes of single bytes at all *)

(* [scan b s]: reads [s], where [b] says whether its first byte is escaped;
   fails at an escaped x. *)
Fixpoint scan (b : bool) (s : bytes) : option bool :=
  match s with
  | [] => Some b
  | c :: s' => if b && beq c "x"%byte then None else scan (if beq c "\"%byte then negb b else false) s'
  end.
Definition safe (s : bytes) : Prop := scan false s = Some false.

Lemma scan_app a : forall b s, scan b (a ++ s) = match scan b a with Some b' => scan b' s | None => None end.
Proof. induction a as [|c a IH]; intros b s; [reflexivity|]. cbn [app scan]. destruct (b && beq c "x"%byte); [reflexivity|apply IH]. Qed.
Lemma safe_app a b : safe a -> safe b -> safe (a ++ b).
Proof. unfold safe. intros A B. rewrite scan_app, A. exact B. Qed.
Lemma safe_plain s : Forall (fun c => c <> "\"%byte) s -> safe s.
Proof. unfold safe. induction 1 as [|c s Hc _ IH]; [reflexivity|]. cbn [scan andb]. destruct (beq_spec c "\"%byte); [congruence|]. exact IH. Qed.
Lemma safe_cons c s : c <> "\"%byte -> safe s -> safe (c :: s).
Proof. intros Hc S. change (safe ([c] ++ s)). apply safe_app; [apply safe_plain; repeat constructor; exact Hc|exact S]. Qed.

Lemma scan_parity a : forall b b', scan b a = Some b' -> b' = fold_left (fun x c => if beq c "\"%byte then negb x else false) a b.
Proof. induction a as [|c a IH]; intros b b' H; [injection H as ->; reflexivity|]. cbn [scan] in H. destruct (b && beq c "x"%byte); [discriminate|]. cbn [fold_left]. apply IH, H. Qed.

Lemma safe_no_escape s : safe s -> no_high_escape s.
Proof.
  intros S a h n b E O _. exfalso. unfold safe in S. rewrite E, scan_app in S. destruct (scan false a) as [x|] eqn:Sa; [|discriminate].
  apply scan_parity in Sa. change (x = odd_run a) in Sa. rewrite O in Sa. subst x. cbn in S. discriminate.
Qed.

Lemma escape_safe s : safe (flat_map escape_char s).
Proof. induction s as [|c s IH]; [reflexivity|]. cbn [flat_map]. apply safe_app; [destruct c; reflexivity|exact IH]. Qed.
Lemma quote_safe s : safe (quote_string s).
Proof. unfold quote_string. apply safe_cons; [discriminate|]. apply safe_app; [apply escape_safe|reflexivity]. Qed.

Definition plain_byte (c : byte) : Prop := c <> "\"%byte.
Lemma digit_byte_plain d : 0 <= d < 10 -> plain_byte (digit_byte d).
Proof. intros H E. apply (f_equal bz) in E. unfold digit_byte in E. rewrite bz_zb in E by lia. change (bz "\"%byte) with 92 in E. lia. Qed.
Lemma fmt_digits_plain fuel : forall n acc, Forall plain_byte acc -> Forall plain_byte (fmt_digits fuel n acc).
Proof.
  induction fuel as [|k IH]; intros n acc F; [exact F|]. cbn [fmt_digits].
  assert (Fa : Forall plain_byte (digit_byte (n mod 10) :: acc)) by (constructor; [apply digit_byte_plain, Z.mod_pos_bound; lia|exact F]).
  destruct (n <? 10); [exact Fa|apply IH, Fa].
Qed.
Lemma format_uint_plain n : Forall plain_byte (format_uint n).
Proof. apply fmt_digits_plain. constructor. Qed.
Lemma format_int_plain z : Forall plain_byte (format_int z).
Proof. unfold format_int. destruct (z <? 0); [constructor; [discriminate|]|]; apply format_uint_plain. Qed.
Lemma layout_plain d j : Forall plain_byte (layout_f d j).
Proof.
  assert (Z0 : forall n, Forall plain_byte (zeros n)) by (intros n; unfold zeros; induction (Z.to_nat n); constructor; [discriminate|assumption]).
  unfold layout_f. pose proof (format_uint_plain d) as F. destruct (0 <=? j); [apply Forall_app; split; [exact F|apply Z0]|].
  destruct (0 <? _).
  - rewrite <- (firstn_skipn (Z.to_nat (Z.of_nat (length (format_uint d)) + j)) (format_uint d)) in F. apply Forall_app in F as [F1 F2].
    apply Forall_app. split; [exact F1|]. constructor; [discriminate|exact F2].
  - repeat (constructor; [discriminate|]). apply Forall_app. split; [apply Z0|exact F].
Qed.
Lemma float_string_plain f bit : Forall plain_byte (float_string f bit).
Proof.
  assert (G : forall F x, Forall plain_byte (format_float F x)).
  { intros F [|[]|neg m e]; try (repeat (constructor; [discriminate|]); constructor). cbn [format_float]. apply Forall_app. split; [destruct neg; [constructor; [discriminate|constructor]|constructor]|].
    destruct (m =? 0); [constructor; [discriminate|constructor]|]. destruct (shortest F m e) as [d j]. apply layout_plain. }
  unfold float_string. destruct (bit =? 32); apply G.
Qed.

Lemma go_safe l : Forall (fun v => safe (build_string v)) l -> forall idx, safe ((fix go (idx : nat) (l : list json) : bytes :=
              match l with
              | [] => []
              | v :: l' => (if Nat.ltb 0 idx then [","%byte] else []) ++ build_string v ++ go (S idx) l'
              end) idx l).
Proof. induction 1 as [|v l Hv _ IHl]; intros idx; [reflexivity|]. apply safe_app; [destruct (0 <? idx)%nat; reflexivity|]. apply safe_app; [exact Hv|apply IHl]. Qed.
Lemma go_safe_members kvs : Forall (fun kv => safe (build_string (snd kv))) kvs -> forall idx, safe ((fix go (idx : nat) (kvs : list (bytes * json)) : bytes :=
              match kvs with
              | [] => []
              | (k, v) :: kvs' => (if Nat.ltb 0 idx then [","%byte] else []) ++ quote_string k ++ [":"%byte] ++ build_string v ++ go (S idx) kvs'
              end) idx kvs).
Proof.
  induction 1 as [|[k v] l Hv _ IHl]; intros idx; [reflexivity|]. apply safe_app; [destruct (0 <? idx)%nat; reflexivity|].
  apply safe_app; [apply quote_safe|]. apply safe_cons; [discriminate|]. apply safe_app; [exact Hv|apply IHl].
Qed.

Lemma build_safe v : safe (build_string v).
Proof.
  induction v as [|x|z|f bit|s|l IH|nid kvs IH|n] using json_ind'; cbn [build_string].
  - reflexivity.
  - destruct x; reflexivity.
  - apply safe_plain, format_int_plain.
  - apply safe_plain, float_string_plain.
  - apply quote_safe.
  - apply safe_cons; [discriminate|]. apply safe_app; [|reflexivity]. apply go_safe. eapply Forall_impl; [|exact IH]. intros v Hv. exact Hv.
  - apply safe_cons; [discriminate|]. apply safe_app.
    { destruct (0 <? nid); [|reflexivity]. apply safe_app; [reflexivity|]. apply safe_cons; [discriminate|]. apply safe_plain, format_int_plain. }
    apply safe_app; [|reflexivity]. apply go_safe_members. exact IH.
  - unfold ptr_string. apply safe_cons; [discriminate|]. apply safe_app; [apply safe_plain, format_int_plain|reflexivity].
Qed.

Theorem C70_string_no_escapes v : no_high_escape (String_ v).
Proof. apply safe_no_escape, build_safe. Qed.

(** So reading and writing documents any number of times stays within
    well-formed UTF-8. *)
Theorem C70_rewritten s v o : utf8_text s -> no_high_escape s -> Parse s = SOk v o -> utf8_text (String_ v) /\ no_high_escape (String_ v).
Proof. intros U E P. split; [apply C70_string; eapply C70_parse; eassumption|apply C70_string_no_escapes]. Qed.

(** The query string of any value is ASCII. *)
Theorem C70_query_string v : Forall (fun c => bz c < 128) (QueryString v).
Proof.
  assert (E : forall s, Forall ascii (query_escape s)).
  { intros s. apply Forall_forall. intros c I. destruct (C24_escaping s) as [_ H]. destruct (H c I) as (_ & _ & _ & L). unfold ascii. lia. }
  change (Forall ascii (QueryString v)).
  destruct v; try (rewrite C24_text_empty by (intros; discriminate); constructor). rewrite C24_text.
  assert (J : forall l, Forall (Forall ascii) l -> Forall ascii (join_with "&"%byte l)).
  { intros l H. induction H as [|x l Hx Hl IH]; [constructor|]. cbn [join_with]. destruct l; [exact Hx|]. apply Forall_app. split; [exact Hx|]. constructor; [reflexivity|exact IH]. }
  apply J. apply Forall_forall. intros t I. apply in_map_iff in I as (r & <- & _). unfold row_text. destruct (snd r) as [x|]; [|constructor].
  apply Forall_app. split; [apply E|]. apply Forall_app. split; [|apply E]. destruct (_ || _); repeat constructor.
Qed.

(** The excluded escapes do give other bytes; surrogates give U+FFFD. *)
Theorem C70_high_escape_refuted : exists s v o, utf8_text s /\ Parse s = SOk v o /\ ~ utf8_value v.
Proof.
  exists ([""""; "\"; "x"; "f"; "f"; """"]%byte), (JString [xff]), 6%nat. split; [apply ut_all_ascii; repeat constructor|]. split; [reflexivity|].
  rewrite string_value_iff. intros H. inversion H as [|u s U S E]. destruct (char_cases u U) as [(c & -> & Hc)|[Nu _]].
  - cbn in E. injection E as -> _. unfold ascii in Hc. vm_compute in Hc. discriminate.
  - destruct u as [|c u]; [congruence|]. injection E as -> E. inversion U as [cp u' X|cp b1 b2 b3 b4 h i j k]; subst.
    + inversion X; subst; try match goal with H : bz xff = _ |- _ => change (bz xff) with 255 in H; lia end; match goal with H : bz xff < _ |- _ => change (bz xff) with 255 in H; lia end.
    + discriminate E.
Qed.

(** A text with characters of two, three and four bytes, in a name, in a word
    without quotes and between quotes, next to escapes. *)
Definition u_text : bytes := B "{" ++ [xc3; xa9] ++ B ":[" ++ [xe2; x82; xac] ++ B "," ++ [""""; "\"]%byte ++ [xf0; x9f; x98; x80] ++ ["\"; "x"; "4"; "1"; """"]%byte ++ B "]}".
Lemma u_text_ok : utf8_text u_text.
Proof.
  unfold u_text. repeat apply ut_app; try (apply ut_all_ascii; repeat constructor; fail).
  - apply (ut_cons [xc3; xa9] []); [|constructor]. eapply uc_bmp, (utf8_2 233 _ _ 3 41); vm_compute; intuition (discriminate || reflexivity).
  - apply (ut_cons [xe2; x82; xac] []); [|constructor]. eapply uc_bmp, (utf8_3 8364 _ _ _ 2 2 44); vm_compute; intuition (discriminate || reflexivity).
  - apply (ut_cons [xf0; x9f; x98; x80] []); [|constructor]. apply (uc_beyond 128512 _ _ _ _ 0 31 24 0); vm_compute; intuition (discriminate || reflexivity).
Qed.
Lemma hex_bound h n : hex_digit h n -> 48 <= bz h. Proof. unfold hex_digit. lia. Qed.
Lemma u_text_escapes : no_high_escape u_text.
Proof.
  intros a h n b E _ H. assert (Hn : nth_error u_text (S (S (length a))) = Some h).
  { rewrite E. rewrite nth_error_app2 by lia. replace (S (S (length a)) - length a)%nat with 2%nat by lia. reflexivity. }
  assert (Hx : nth_error u_text (S (length a)) = Some "x"%byte).
  { rewrite E. rewrite nth_error_app2 by lia. replace (S (length a) - length a)%nat with 1%nat by lia. reflexivity. }
  destruct (length a) as [|k]; [vm_compute in Hx; discriminate|].
  do 20 (destruct k as [|k]; [first [vm_compute in Hx; discriminate|vm_compute in Hn; injection Hn as <-; unfold hex_digit in H; change (bz "4"%byte) with 52 in H; lia]|]).
  vm_compute in Hx. destruct k; discriminate.
Qed.
Example C70_parse_example : exists v o, Parse u_text = SOk v o /\ utf8_value v /\ utf8_text (String_ v) /\
  v = JDict 0 [([xc3; xa9], JArray [JString [xe2; x82; xac]; JString ([xf0; x9f; x98; x80] ++ ["A"%byte])])].
Proof.
  assert (P : Parse u_text = SOk (JDict 0 [([xc3; xa9], JArray [JString [xe2; x82; xac]; JString ([xf0; x9f; x98; x80] ++ ["A"%byte])])]) (length u_text)) by (vm_compute; reflexivity).
  do 2 eexists. split; [exact P|]. pose proof (C70_parse _ _ _ u_text_ok u_text_escapes P) as V. split; [exact V|]. split; [apply C70_string, V|reflexivity].
Qed.
