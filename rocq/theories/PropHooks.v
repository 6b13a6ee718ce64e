(** C53: AfterUnmarshal methods (unmarshal.go:627, 635-653).  Vocabulary in
    SpecHooks.v. *)
From Verif Require Import Base Heap Hooks SpecHooks HooksFacts.
From Coq Require Import Sorting.Sorted.

Lemma Forall2_weaken {A C} (P Q : A -> C -> Prop) l l' : (forall x y, P x y -> Q x y) -> Forall2 P l l' -> Forall2 Q l l'.
Proof. intros H. induction 1; constructor; auto. Qed.

Section C53.
Context (fields : nat -> list sfield) (method : nat -> option (list nat)) (by_pointer : nat -> bool) (vars : list svar).
Notation part := (part fields vars).
Notation hooked := (hooked fields method vars).
Notation uncallable := (uncallable fields method by_pointer vars).
Notation is_call := (is_call fields method vars).
Notation well_typed := (well_typed fields method vars).
(** What runs when Unmarshal has filled the struct of type [T] in [a]. *)
Notation after_unmarshal := (fun fuel T a => call_after fields method by_pointer vars fuel [] false T a).

(** Every embedded part that has an AfterUnmarshal, of its own or promoted, gets
    one call: embedded parts before what embeds them, fields in order, the
    struct itself at last. *)
Theorem C53_calls : forall fuel T a r, well_typed T a ->
  after_unmarshal fuel T a = Some r -> hr_panic r = false ->
  exists ps, StronglySorted before ps /\ (forall p, In p ps <-> hooked T a p) /\ Forall2 (is_call T a) ps (hr_calls r).
Proof.
  intros fuel T a r W E Pn. destruct (call_after_good _ _ _ _ _ _ _ _ _ _ W E) as (ps & S & _ & Cs & X). rewrite Pn in X.
  assert (Cs' : Forall2 (is_call T a) ps (hr_calls r)).
  { eapply Forall2_weaken; [|exact Cs]. intros p c [_ (c' & I & ->)]. cbn. destruct c'; exact I. }
  exists ps. split; [exact S|]. split; [|exact Cs']. intros p. split; [|apply X; exact Logic.I].
  intros I. clear - I Cs'. induction Cs' as [|p' c ps cs (U & b & m & P & M & _) F IH]; [destruct I|]. destruct I as [->|I]; [|exact (IH I)]. exists U, b, m. auto.
Qed.

(** It panics exactly if a method cannot be called; then the calls before that
    one have been made. *)
Theorem C53_panics : forall fuel T a r, well_typed T a -> after_unmarshal fuel T a = Some r ->
  (hr_panic r = true <-> exists p, uncallable T a p)
  /\ (hr_panic r = true -> exists p ps, uncallable T a p /\ (forall q, uncallable T a q -> q = p \/ ~ before q p) /\
        StronglySorted before ps /\ (forall q, In q ps <-> hooked T a q /\ before q p) /\ Forall2 (is_call T a) ps (hr_calls r)).
Proof.
  intros fuel T a r W E. destruct (call_after_good _ _ _ _ _ _ _ _ _ _ W E) as (ps & S & _ & Cs & X).
  assert (Nf : forall p, fails fields method by_pointer vars T a false p <-> uncallable T a p).
  { intros p. split; [intros [H|(_ & Q & _)]; [exact H|discriminate]|intros H; left; exact H]. }
  assert (Uh : forall p, uncallable T a p -> hooked T a p).
  { intros p (U & b & m & P & M & _). exists U, b, m. auto. }
  assert (Cs' : Forall2 (is_call T a) ps (hr_calls r)).
  { eapply Forall2_weaken; [|exact Cs]. intros p c [_ (c' & I & ->)]. cbn. destruct c'; exact I. }
  assert (Ok : forall p, In p ps -> ~ uncallable T a p /\ hooked T a p).
  { intros p I. clear - I Cs Nf. induction Cs as [|p' c ps cs [N (c' & (U & b & m & P & M & _) & _)] F IH]; [destruct I|].
    destruct I as [->|I]; [|exact (IH I)]. split; [rewrite <- Nf; exact N|]. exists U, b, m. auto. }
  destruct (hr_panic r) eqn:Pn.
  - destruct X as (p & _ & Fa & Hp & Only). split; [split; [intros _; exists p; apply Nf, Fa|reflexivity]|]. intros _. exists p, ps. split; [apply Nf, Fa|]. split.
    + intros q Uq. right. intros B. apply (Only q Logic.I (Uh q Uq)) in B. destruct (Ok q B) as [N _]. exact (N Uq).
    + split; [exact S|]. split; [|exact Cs']. intros q. split; [intros I; destruct (Ok q I) as [_ H]; split; [exact H|]; apply (Only q Logic.I H), I|intros [H B]; apply (Only q Logic.I H), B].
  - split; [|discriminate]. split; [discriminate|]. intros (p & Up). exfalso. destruct (Ok p (X p Logic.I (Uh p Up))) as [N _]. exact (N Up).
Qed.

(** Every part whose type declares the method is called with the part as the
    receiver, unless it panics. *)
Theorem C53_declared_is_called : forall (declares : nat -> bool), (forall T, go_selects fields declares T (method T)) ->
  forall fuel T a r p U b, well_typed T a -> after_unmarshal fuel T a = Some r -> hr_panic r = false ->
  part T a p U b -> declares U = true -> In {| hc_path := p; hc_type := U; hc_recv := Some b |} (hr_calls r).
Proof.
  intros declares Sel fuel T a r p U b W E Pn P D.
  assert (M : method U = Some []).
  { specialize (Sel U). assert (D0 : declared_at fields declares U []) by (exists U; split; [reflexivity|exact D]).
    destruct (method U) as [m|]; cbn in Sel.
    - destruct Sel as [_ Sel]. destruct (Sel [] D0) as [->|L]; [reflexivity|cbn in L; lia].
    - destruct (Sel [] D0) as (q & q' & L & L' & N & _). destruct q; [|cbn in L; lia]. destruct q'; [congruence|discriminate]. }
  destruct (C53_calls fuel T a r W E Pn) as (ps & _ & Iff & Cs).
  assert (I : In p ps) by (apply Iff; exists U, b, []; auto).
  clear - I Cs P M. induction Cs as [|p' c ps cs (V & d & m & P' & M' & Pa & R) F IH]; [destruct I|].
  destruct I as [->|I]; [|right; exact (IH I)]. left. destruct (part_det _ _ _ _ _ _ _ _ _ P P') as [<- <-]. rewrite M in M'. injection M' as <-.
  rewrite app_nil_r in Pa. destruct c as [cp ct [cr|]]; cbn in *.
  - apply part_nil in R as [-> ->]. congruence.
  - destruct R as (q & i & ? & ? & ? & ? & ? & Q & _). destruct q; discriminate.
Qed.

(** No other calls: the receiver is the part that the path says, or nil. *)
Theorem C53_receiver : forall fuel T a r c, well_typed T a -> after_unmarshal fuel T a = Some r -> In c (hr_calls r) ->
  match hc_recv c with
  | Some b => part T a (hc_path c) (hc_type c) b
  | None => nil_at_end fields vars T a (hc_path c) (hc_type c)
  end.
Proof.
  intros fuel T a r c W E I. destruct (call_after_good _ _ _ _ _ _ _ _ _ _ W E) as (ps & _ & _ & Cs & _).
  induction Cs as [|p c' ps cs [_ (c0 & (U & b & m & P & M & Pa & R) & ->)] F IH]; [destruct I|]. destruct I as [<-|I]; [|exact (IH I)]. cbn. rewrite Pa. destruct (hc_recv c0).
  - apply part_app. eauto.
  - destruct R as (q & i & V & d & e & l & z & -> & Pq & R). exists (p ++ q), i, V, d, e, l, z. split; [rewrite app_assoc; reflexivity|]. split; [apply part_app; eauto|exact R].
Qed.

(** How often a receiver is called: once for every struct around it, itself
    included, that has the receiver's method as its AfterUnmarshal. *)
Theorem C53_how_often : forall fuel T a r p, well_typed T a -> after_unmarshal fuel T a = Some r -> hr_panic r = false ->
  exists around, NoDup around /\
    (forall q, In q around <-> exists s U b, p = q ++ s /\ part T a q U b /\ method U = Some s) /\
    length around = length (filter (fun c => if list_eq_dec Nat.eq_dec (hc_path c) p then true else false) (hr_calls r)).
Proof.
  intros fuel T a r p W E Pn. destruct (C53_calls fuel T a r W E Pn) as (ps & S & Iff & Cs).
  assert (G : exists around, NoDup around /\ (forall q, In q around <-> In q ps /\ exists s U b, p = q ++ s /\ part T a q U b /\ method U = Some s) /\
    length around = length (filter (fun c => if list_eq_dec Nat.eq_dec (hc_path c) p then true else false) (hr_calls r))).
  { clear Iff E Pn. induction Cs as [|p' c ps cs (U & b & m & P & M & Pa & R) F IH].
    - exists []. split; [constructor|]. split; [|reflexivity]. intros q. split; [intros []|intros [[] _]].
    - inversion S as [|? ? S' Fo]; subst. destruct (IH S') as (ar & ND & A & L). cbn [filter]. destruct (list_eq_dec Nat.eq_dec (hc_path c) p) as [Ep|Np].
      + exists (p' :: ar). split; [constructor; [|exact ND]|].
        * intros I. apply A in I as [I _]. rewrite Forall_forall in Fo. exact (before_irrefl _ (Fo _ I)).
        * split; [|cbn; congruence]. intros q. split.
          -- intros [<-|I]; [split; [left; reflexivity|]; exists m, U, b; split; [congruence|auto]|]. apply A in I as [I H]. split; [right; exact I|exact H].
          -- intros [[<-|I] H]; [left; reflexivity|right; apply A; auto].
      + exists ar. split; [exact ND|]. split; [|exact L]. intros q. rewrite A. split.
        * intros [I H]. split; [right; exact I|exact H].
        * intros [[<-|I] H]; [|auto]. exfalso. destruct H as (s & V & d & Ep & P' & M'). destruct (part_det _ _ _ _ _ _ _ _ _ P P') as [<- <-]. apply Np. congruence. }
  destruct G as (ar & ND & A & L). exists ar. split; [exact ND|]. split; [|exact L]. intros q. rewrite A. split; [tauto|]. intros H. split; [|exact H].
  apply Iff. destruct H as (s & U & b & _ & P & M). exists U, b, s. auto.
Qed.

(** It ends if no struct is embedded in itself, and the depth does not matter. *)
Theorem C53_terminates : forall T a,
  Acc (fun x y => exists i, part (fst y) (snd y) [i] (fst x) (snd x)) (T, a) ->
  exists fuel r, forall more, after_unmarshal (fuel + more)%nat T a = Some r.
Proof.
  intros T a A.
  assert (G : forall x, Acc (fun x y => exists i, part (fst y) (snd y) [i] (fst x) (snd x)) x ->
    exists fuel, forall at_ ro, exists r, forall more, call_after fields method by_pointer vars (fuel + more)%nat at_ ro (fst x) (snd x) = Some r).
  { clear T a A. induction 1 as [[T a] _ IH]. cbn [fst snd] in *.
    assert (Ch : forall i, exists fuel, forall at_, exists r, forall more,
      match child fields vars T a i with Some (e, U, b) => call_after fields method by_pointer vars (fuel + more)%nat (at_ ++ [i]) (negb e) U b | None => Some hook_none end = Some r).
    { intros i. destruct (child fields vars T a i) as [[[e U] b]|] eqn:C.
      - destruct (IH (U, b)) as (fuel & H); [exists i; cbn; apply part_cons; exists e, U, b; split; [exact C|constructor]|]. exists fuel. intros at_. exact (H (at_ ++ [i]) (negb e)).
      - exists O. intros at_. exists hook_none. reflexivity. }
    assert (Bd : forall k, exists fuel, forall i, (i < k)%nat -> forall at_, exists r, forall more,
      match child fields vars T a i with Some (e, U, b) => call_after fields method by_pointer vars (fuel + more)%nat (at_ ++ [i]) (negb e) U b | None => Some hook_none end = Some r).
    { induction k as [|k (f & IHk)]; [exists O; intros i L; lia|]. destruct (Ch k) as (g & H). exists (f + g)%nat. intros i L at_. destruct (Nat.eq_dec i k) as [->|N].
      - destruct (H at_) as (r & Hr). exists r. intros more. specialize (Hr (f + more)%nat). replace (f + g + more)%nat with (g + (f + more))%nat by lia. exact Hr.
      - destruct (IHk i ltac:(lia) at_) as (r & Hr). exists r. intros more. specialize (Hr (g + more)%nat). replace (f + g + more)%nat with (f + (g + more))%nat by lia. exact Hr. }
    destruct (Bd (length (fields T))) as (fuel & H). exists (S fuel). intros at_ ro. cbn [Nat.add call_after].
    assert (L : forall fs i, (i + length fs = length (fields T))%nat -> fs = skipn i (fields T) -> exists r, forall more,
      (fix loop (i : nat) (fs : list sfield) : option hook_run :=
               match fs with
               | [] => Some hook_none
               | f :: fs' =>
                   let here :=
                     match f, field_var vars a i with
                     | Embedded e U, Some b => call_after fields method by_pointer vars (fuel + more)%nat (at_ ++ [i]) (negb e) U b
                     | EmbeddedPtr e U, Some q =>
                         match nth_error vars q with
                         | Some (SPointer (Some b)) => call_after fields method by_pointer vars (fuel + more)%nat (at_ ++ [i]) (negb e) U b
                         | _ => Some hook_none
                         end
                     | _, _ => Some hook_none
                     end in
                   match here with
                   | None => None
                   | Some r => if hr_panic r then Some r
                               else match loop (S i) fs' with
                                    | None => None
                                    | Some r' => Some (hook_then r r')
                                    end
                   end
               end) i fs = Some r).
    { induction fs as [|f fs IHf]; intros i Len Sk; [exists hook_none; reflexivity|]. cbn [length] in Len.
      assert (Fi : nth_error (fields T) i = Some f).
      { rewrite <- (firstn_skipn i (fields T)), <- Sk, nth_error_app2; rewrite firstn_length_le by lia; [|lia]. rewrite Nat.sub_diag. reflexivity. }
      assert (Sk' : fs = skipn (S i) (fields T)).
      { rewrite <- (firstn_skipn i (fields T)), <- Sk. rewrite skipn_app, firstn_length_le by lia. rewrite (skipn_all2 (firstn i (fields T))) by (rewrite firstn_length_le; lia).
        replace (S i - i)%nat with 1%nat by lia. reflexivity. }
      destruct (H i ltac:(lia) at_) as (r0 & H0). destruct (IHf (S i) ltac:(lia) Sk') as (r1 & H1).
      exists (if hr_panic r0 then r0 else hook_then r0 r1). intros more. specialize (H0 more). specialize (H1 more). rewrite H1.
      assert (He : match f, field_var vars a i with
                     | Embedded e U, Some b => call_after fields method by_pointer vars (fuel + more)%nat (at_ ++ [i]) (negb e) U b
                     | EmbeddedPtr e U, Some q =>
                         match nth_error vars q with
                         | Some (SPointer (Some b)) => call_after fields method by_pointer vars (fuel + more)%nat (at_ ++ [i]) (negb e) U b
                         | _ => Some hook_none
                         end
                     | _, _ => Some hook_none
                     end = Some r0).
      { rewrite <- H0. unfold child. rewrite Fi. destruct f as [e U|e U|]; [destruct (field_var vars a i); reflexivity| |reflexivity].
        destruct (field_var vars a i) as [q|]; [|reflexivity]. destruct (nth_error vars q) as [[|[b|]|]|]; reflexivity. }
      rewrite He. cbv beta iota zeta. destruct (hr_panic r0); reflexivity. }
    destruct (L (fields T) O eq_refl eq_refl) as (r & Hr). exists (hook_then r (call_own fields method by_pointer vars at_ ro T a)). intros more. rewrite Hr. reflexivity. }
  destruct (G (T, a) A) as (fuel & H). destruct (H [] false) as (r & Hr). exists fuel, r. exact Hr.
Qed.
End C53.

(** ** Examples *)

(** type Base struct {...} with AfterUnmarshal (0); type Mid struct { Base; *Opt } (1);
    type Opt struct {...} with AfterUnmarshal (2); type Top struct { Mid; x int } with AfterUnmarshal (3);
    type Wrap struct { Base } (4); type hid struct {...} with AfterUnmarshal (5);
    type Out struct { hid } (6); type Loop struct { *Loop } (7);
    type Lazy struct { *Base } (8); type Far struct { *Wrap } (9). *)
Definition ex_fields (T : nat) : list sfield :=
  match T with
  | 1 => [Embedded true 0; EmbeddedPtr true 2]
  | 3 => [Embedded true 1; Plain]
  | 4 => [Embedded true 0]
  | 6 => [Embedded false 5]
  | 7 => [EmbeddedPtr true 7]
  | 8 => [EmbeddedPtr true 0]
  | 9 => [EmbeddedPtr true 4]
  | _ => [Plain]
  end%nat.
Definition ex_declares (T : nat) : bool := match T with 0 | 2 | 3 | 5 => true | _ => false end%nat.
Definition ex_method (T : nat) : option (list nat) :=
  match T with
  | 0 | 2 | 3 | 5 => Some []
  | 4 | 6 | 8 => Some [0]
  | 9 => Some [0; 0]
  | _ => None                                  (* Mid: two at the same depth *)
  end%nat.
Definition ex_pointer (T : nat) : bool := true.

Example ex_method_is_go : forall T, go_selects ex_fields ex_declares T (ex_method T).
Proof.
  intros T.
  assert (Z : forall U p, nth_error (ex_fields U) 0 = Some Plain -> Datatypes.length (ex_fields U) = 1%nat -> p <> [] -> type_at ex_fields U p = None).
  { intros U p F L N. destruct p as [|[|i] p]; [congruence|cbn [type_at]; rewrite F; reflexivity|]. cbn [type_at].
    destruct (ex_fields U) as [|x [|y l]]; try discriminate. cbn in *. destruct i; reflexivity. }
  assert (Own : forall U, ex_declares U = true -> go_selects ex_fields ex_declares U (Some [])).
  { intros U D. split; [exists U; auto|]. intros q _. destruct q; [left; reflexivity|right; cbn; lia]. }
  assert (L7 : forall p, ~ declared_at ex_fields ex_declares 7 p).
  { induction p as [|i p IH]; intros (U & Ty & D); [cbn in Ty; injection Ty as <-; discriminate|]. destruct i as [|[|i]]; cbn in Ty; try discriminate. apply IH. exists U. auto. }
  destruct T as [|[|[|[|[|[|[|[|[|[|T]]]]]]]]]]; try (apply Own; reflexivity).
  - cbn. intros p (U & Ty & D). exists [0]%nat, [1]%nat. destruct p as [|i p]; [injection Ty as <-; discriminate|]. cbn. repeat split; try lia; try discriminate; [exists 0%nat|exists 2%nat]; auto.
  - split; [exists 0%nat; auto|]. intros q (U & Ty & D). destruct q as [|[|[|i]] q]; cbn in Ty; try discriminate; [injection Ty as <-; discriminate|]. destruct q; [left; reflexivity|right; cbn; lia].
  - split; [exists 5%nat; auto|]. intros q (U & Ty & D). destruct q as [|[|[|i]] q]; cbn in Ty; try discriminate; [injection Ty as <-; discriminate|]. destruct q; [left; reflexivity|right; cbn; lia].
  - intros p H. destruct (L7 p H).
  - split; [exists 0%nat; auto|]. intros q (U & Ty & D). destruct q as [|[|[|i]] q]; cbn in Ty; try discriminate; [injection Ty as <-; discriminate|]. destruct q; [left; reflexivity|right; cbn; lia].
  - split; [exists 0%nat; auto|]. intros q (U & Ty & D). destruct q as [|[|[|i]] q]; cbn in Ty; try discriminate; [injection Ty as <-; discriminate|].
    destruct q as [|[|[|i]] q]; cbn in Ty; try discriminate; [injection Ty as <-; discriminate|]. destruct q; [left; reflexivity|right; cbn; lia].
  - cbn. intros p (U & Ty & D). exfalso. destruct p as [|i p].
    + cbn in Ty. injection Ty as <-. discriminate.
    + rewrite Z in Ty; [discriminate|reflexivity|reflexivity|discriminate].
Qed.

(** A Top with its Opt: Base, Opt, Top. *)
Definition ex_vars : list svar :=
  [SStruct [1; 7]; SStruct [2; 3]; SStruct [6]; SPointer (Some 4); SStruct [5]; SOther; SOther; SOther]%nat.
Example C53_top_example :
  call_after ex_fields ex_method ex_pointer ex_vars 5 [] false 3 0 =
  Some {| hr_calls := [{| hc_path := [0; 0]; hc_type := 0; hc_recv := Some 2 |}; {| hc_path := [0; 1]; hc_type := 2; hc_recv := Some 4 |};
                       {| hc_path := []; hc_type := 3; hc_recv := Some 0 |}]%nat; hr_panic := false |}.
Proof. reflexivity. Qed.

(** The parts of that Top. *)
Lemma ex_parts p U b : part ex_fields ex_vars 3 0 p U b ->
  In (p, U, b) [([], 3, 0); ([0], 1, 1); ([0; 0], 0, 2); ([0; 1], 2, 4)]%nat.
Proof.
  assert (N2 : forall p U b, part ex_fields ex_vars 0 2 p U b -> p = [] /\ U = 0%nat /\ b = 2%nat).
  { intros p' U' b' P. destruct p' as [|i p']; [apply part_nil in P as [-> ->]; auto|]. apply part_cons in P as (e & V & c & C & _). destruct i as [|[|i]]; discriminate. }
  assert (N4 : forall p U b, part ex_fields ex_vars 2 4 p U b -> p = [] /\ U = 2%nat /\ b = 4%nat).
  { intros p' U' b' P. destruct p' as [|i p']; [apply part_nil in P as [-> ->]; auto|]. apply part_cons in P as (e & V & c & C & _). destruct i as [|[|i]]; discriminate. }
  intros P. destruct p as [|i p]; [apply part_nil in P as [-> ->]; left; reflexivity|]. right.
  apply part_cons in P as (e & V & c & C & P). destruct i as [|[|[|i]]]; try discriminate. injection C as <- <- <-.
  destruct p as [|i p]; [apply part_nil in P as [-> ->]; left; reflexivity|]. right.
  apply part_cons in P as (e & V & c & C & P). destruct i as [|[|[|i]]]; try discriminate; injection C as <- <- <-.
  - apply N2 in P as (-> & -> & ->). left. reflexivity.
  - apply N4 in P as (-> & -> & ->). right. left. reflexivity.
Qed.
Example C53_hypotheses_example : well_typed ex_fields ex_method ex_vars 3 0
  /\ Acc (fun x y => exists i, part ex_fields ex_vars (fst y) (snd y) [i] (fst x) (snd x)) (3, 0)%nat.
Proof.
  split.
  - intros p U b P. apply ex_parts in P.
    destruct P as [P|[P|[P|[P|[]]]]]; injection P as <- <- <-; (split; [eexists; split; [reflexivity|]; split; [reflexivity|]|intros m M; cbn in M; try discriminate M; injection M as <-; discriminate]);
      intros i e V q F Q; destruct i as [|[|i]]; cbn in F, Q; try discriminate F; try (destruct i; discriminate F); injection F as <- <-; injection Q as <-; eexists; reflexivity.
  - assert (Leaf : forall T a, (T, a) = (0, 2)%nat \/ (T, a) = (2, 4)%nat -> Acc (fun x y => exists i, part ex_fields ex_vars (fst y) (snd y) [i] (fst x) (snd x)) (T, a)).
    { intros T a H. constructor. intros [U b] (i & P). cbn [fst snd] in P. destruct H as [H|H]; injection H as -> ->;
        apply part_cons in P as (e & V & c & C & P); destruct i as [|[|i]]; discriminate. }
    constructor. intros [U b] (i & P). cbn [fst snd] in P. apply part_cons in P as (e & V & c & C & P). destruct i as [|[|[|i]]]; try discriminate. injection C as <- <- <-.
    apply part_nil in P as [-> ->]. constructor. intros [U b] (i & P). cbn [fst snd] in P. apply part_cons in P as (e & V & c & C & P).
    destruct i as [|[|[|i]]]; try discriminate; injection C as <- <- <-; apply part_nil in P as [-> ->]; apply Leaf; auto.
Qed.

(** FALSE that each method runs once: a struct that embeds one with the method
    and has none of its own inherits it, and it runs twice on the same receiver. *)
Theorem C53_once_refuted :
  call_after ex_fields ex_method ex_pointer [SStruct [1]; SStruct [2]; SOther]%nat 5 [] false 4 0 =
  Some {| hr_calls := [{| hc_path := [0]; hc_type := 0; hc_recv := Some 1 |}; {| hc_path := [0]; hc_type := 0; hc_recv := Some 1 |}]%nat; hr_panic := false |}.
Proof. reflexivity. Qed.

(** FALSE that it never panics: an embedded struct whose type name is not
    exported cannot have the method; and neither can a struct behind an embedded
    pointer that is nil, unless it is the last one and has a pointer receiver,
    which is then nil. *)
Theorem C53_no_panic_refuted :
  call_after ex_fields ex_method ex_pointer [SStruct [1]; SStruct [2]; SOther]%nat 5 [] false 6 0 = Some hook_fail
  /\ call_after ex_fields ex_method ex_pointer [SStruct [1]; SPointer None]%nat 5 [] false 8 0 =
     Some {| hr_calls := [{| hc_path := [0]; hc_type := 0; hc_recv := None |}]%nat; hr_panic := false |}
  /\ call_after ex_fields ex_method (fun _ => false) [SStruct [1]; SPointer None]%nat 5 [] false 8 0 = Some hook_fail
  /\ call_after ex_fields ex_method ex_pointer [SStruct [1]; SPointer None]%nat 5 [] false 9 0 = Some hook_fail.
Proof. repeat split. Qed.

(** FALSE that it always ends: a struct that embeds a pointer to itself. *)
Theorem C53_ends_refuted : forall fuel, call_after ex_fields ex_method ex_pointer [SStruct [1]; SPointer (Some 0)]%nat fuel [] false 7 0 = None.
Proof.
  assert (G : forall fuel at_ ro, call_after ex_fields ex_method ex_pointer [SStruct [1]; SPointer (Some 0)]%nat fuel at_ ro 7 0 = None).
  { induction fuel as [|n IH]; intros at_ ro; [reflexivity|]. cbn. rewrite IH. reflexivity. }
  intros fuel. apply G.
Qed.

Print Assumptions C53_calls.
Print Assumptions C53_how_often.
