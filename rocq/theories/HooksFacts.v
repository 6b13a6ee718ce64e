(** Facts about callStructAfterUnmarshal. *)
From Verif Require Import Base Heap Hooks SpecHooks.
From Coq Require Import Sorting.Sorted.

Section Facts.
Context (fields : nat -> list sfield) (method : nat -> option (list nat)) (by_pointer : nat -> bool) (vars : list svar).
Notation part := (part fields vars).
Notation hooked := (hooked fields method vars).
Notation uncallable := (uncallable fields method by_pointer vars).
Notation is_call := (is_call fields method vars).
Notation well_typed := (well_typed fields method vars).
Notation hidden := (hidden fields).
Notation type_at := (type_at fields).
Notation nil_before_end := (nil_before_end fields vars).
Notation nil_at_end := (nil_at_end fields vars).
Notation follow := (follow fields by_pointer vars).
Notation call_own := (call_own fields method by_pointer vars).
Notation call_after := (call_after fields method by_pointer vars).
Notation field_var := (field_var vars).

Definition child (T : nat) (a : addr) (i : nat) : option (bool * nat * addr) :=
  match nth_error (fields T) i, field_var a i with
  | Some (Embedded e U), Some b => Some (e, U, b)
  | Some (EmbeddedPtr e U), Some q =>
      match nth_error vars q with Some (SPointer (Some b)) => Some (e, U, b) | _ => None end
  | _, _ => None
  end.

Lemma field_var_some a i b : field_var a i = Some b <-> exists l, nth_error vars a = Some (SStruct l) /\ nth_error l i = Some b.
Proof.
  unfold Hooks.field_var. destruct (nth_error vars a) as [[l|p|]|]; split; intros H; try discriminate; try (destruct H as (l' & E & _); discriminate).
  - exists l. auto.
  - destruct H as (l' & E & N). injection E as ->. exact N.
Qed.

Lemma part_cons T a i p V c : part T a (i :: p) V c <-> exists e U b, child T a i = Some (e, U, b) /\ part U b p V c.
Proof.
  split.
  - intros H. inversion H; subst.
    + exists e, U, b. split; [|assumption]. unfold child.
      assert (F : field_var a i = Some b) by (apply field_var_some; eauto). match goal with X : nth_error (fields T) i = _ |- _ => rewrite X end. rewrite F. reflexivity.
    + exists e, U, b. split; [|assumption]. unfold child.
      assert (F : field_var a i = Some q) by (apply field_var_some; eauto).
      match goal with X : nth_error (fields T) i = _ |- _ => rewrite X end. rewrite F.
      match goal with X : nth_error vars q = _ |- _ => rewrite X end. reflexivity.
  - intros (e & U & b & C & P). unfold child in C.
    destruct (nth_error (fields T) i) as [[e' U'|e' U'|]|] eqn:F; try discriminate.
    + destruct (field_var a i) as [b'|] eqn:G; [|discriminate]. injection C as -> -> ->. apply field_var_some in G as (l & G1 & G2).
      eapply part_value; eassumption.
    + destruct (field_var a i) as [q|] eqn:G; [|discriminate]. apply field_var_some in G as (l & G1 & G2).
      destruct (nth_error vars q) as [[|[b'|]|]|] eqn:Q; try discriminate. injection C as -> -> ->.
      eapply part_pointer; eassumption.
Qed.
Lemma part_nil T a V c : part T a [] V c <-> V = T /\ c = a.
Proof. split; [intros H; inversion H; auto|intros [-> ->]; constructor]. Qed.

Lemma part_det T a p : forall U b V c, part T a p U b -> part T a p V c -> U = V /\ b = c.
Proof.
  revert T a. induction p as [|i p IH]; intros T a U b V c H1 H2.
  - apply part_nil in H1 as [-> ->]. apply part_nil in H2 as [-> ->]. auto.
  - apply part_cons in H1 as (e & X & x & C & H1). apply part_cons in H2 as (e' & Y & y & C' & H2).
    rewrite C in C'. injection C' as <- <- <-. eapply IH; eassumption.
Qed.
Lemma part_app T a p q V c : part T a (p ++ q) V c <-> exists U b, part T a p U b /\ part U b q V c.
Proof.
  revert T a. induction p as [|i p IH]; intros T a.
  - split; [intros H; exists T, a; split; [constructor|exact H]|]. intros (U & b & H1 & H2). apply part_nil in H1 as [-> ->]. exact H2.
  - cbn [app]. rewrite part_cons. split.
    + intros (e & U & b & C & H). apply IH in H as (X & x & H1 & H2). exists X, x. split; [|exact H2]. apply part_cons. eauto.
    + intros (X & x & H1 & H2). apply part_cons in H1 as (e & U & b & C & H1). exists e, U, b. split; [exact C|]. apply IH. eauto.
Qed.

Lemma child_type T a i e U b : child T a i = Some (e, U, b) ->
  exists f, nth_error (fields T) i = Some f /\ match f with Embedded e' U' | EmbeddedPtr e' U' => e' = e /\ U' = U | Plain => False end.
Proof.
  unfold child. destruct (nth_error (fields T) i) as [[e' U'|e' U'|]|]; try discriminate.
  - destruct (field_var a i); [|discriminate]. intros H. injection H as -> -> _. eexists. split; [reflexivity|]. cbn. auto.
  - destruct (field_var a i) as [q|]; [|discriminate]. destruct (nth_error vars q) as [[|[b'|]|]|]; try discriminate.
    intros H. injection H as -> -> _. eexists. split; [reflexivity|]. cbn. auto.
Qed.
Lemma child_type_at T a i e U b p : child T a i = Some (e, U, b) -> type_at T (i :: p) = type_at U p.
Proof. intros C. apply child_type in C as (f & F & M). cbn [SpecHooks.type_at]. rewrite F. destruct f; [destruct M as [_ ->]|destruct M as [_ ->]|destruct M]; reflexivity. Qed.

Lemma hidden_nil T : ~ hidden T [].
Proof. intros (q & i & U & f & E & _). destruct q; discriminate. Qed.
Lemma hidden_one T a i e U b : child T a i = Some (e, U, b) -> hidden T [i] <-> e = false.
Proof.
  intros C. apply child_type in C as (f & F & M). split.
  - intros (q & j & V & g & E & Ty & G & H). destruct q as [|? [|? ?]]; try discriminate. injection E as <-. cbn in Ty. injection Ty as <-. rewrite F in G. injection G as <-. destruct f; [destruct M as [<- _]|destruct M as [<- _]|destruct M]; exact H.
  - intros ->. exists [], i, T, f. repeat split; [exact F|]. destruct f; [apply M|apply M|destruct M].
Qed.
Lemma hidden_cons T a i j p e U b : child T a i = Some (e, U, b) -> hidden T (i :: j :: p) <-> hidden U (j :: p).
Proof.
  intros C. split.
  - intros (q & k & V & g & E & Ty & G & H). destruct q as [|x q]; [discriminate|]. injection E as <- E. rewrite (child_type_at _ _ _ _ _ _ _ C) in Ty.
    exists q, k, V, g. auto.
  - intros (q & k & V & g & E & Ty & G & H). exists (i :: q), k, V, g. split; [cbn; congruence|]. rewrite (child_type_at _ _ _ _ _ _ _ C). auto.
Qed.

Lemma hooked_cons T a i p : hooked T a (i :: p) <-> exists e U b, child T a i = Some (e, U, b) /\ hooked U b p.
Proof.
  split.
  - intros (V & c & m & P & M). apply part_cons in P as (e & U & b & C & P). exists e, U, b. split; [exact C|]. exists V, c, m. auto.
  - intros (e & U & b & C & V & c & m & P & M). exists V, c, m. split; [|exact M]. apply part_cons. eauto.
Qed.

(** [ro]: the struct itself is in a field that is not exported. *)
Definition fails (T : nat) (a : addr) (ro : bool) (p : list nat) : Prop :=
  uncallable T a p \/ (p = [] /\ ro = true /\ method T <> None).
Lemma fails_cons T a ro i p e U b : child T a i = Some (e, U, b) -> fails T a ro (i :: p) <-> fails U b (negb e) p.
Proof.
  intros C. split.
  - intros [(V & c & m & P & M & H)|(E & _)]; [|discriminate]. apply part_cons in P as (e' & U' & b' & C' & P). rewrite C in C'. injection C' as <- <- <-.
    destruct H as [H|H].
    + destruct p as [|j p]; [|left; exists V, c, m; split; [exact P|split; [exact M|left; eapply hidden_cons; eassumption]]].
      right. apply part_nil in P as [-> ->]. split; [reflexivity|]. split; [|congruence]. apply (hidden_one _ _ _ _ _ _ C) in H. subst e. reflexivity.
    + left. exists V, c, m. auto.
  - intros [(V & c & m & P & M & H)|(-> & E & M)].
    + left. exists V, c, m. split; [apply part_cons; eauto|]. split; [exact M|]. destruct H as [H|H]; [|auto]. left.
      destruct p as [|j p]; [destruct (hidden_nil _ H)|]. eapply hidden_cons; eassumption.
    + left. destruct (method U) as [m|] eqn:Mm; [|destruct (M eq_refl)]. exists U, b, m. split; [apply part_cons; exists e, U, b; split; [exact C|constructor]|]. split; [exact Mm|]. left.
      eapply hidden_one; [exact C|]. destruct e; [discriminate|reflexivity].
Qed.

Lemma well_typed_child T a i e U b : well_typed T a -> child T a i = Some (e, U, b) -> well_typed U b.
Proof. intros W C p V c P. apply (W (i :: p)). apply part_cons. eauto. Qed.

(** ** Calling a method *)

Lemma follow_ok m : forall U b, well_typed U b -> type_at U m <> None ->
  match follow U b m with
  | Some (V, Some r) => part U b m V r
  | Some (V, None) => nil_at_end U b m V /\ by_pointer V = true
  | None => nil_before_end U b m \/ exists W, nil_at_end U b m W /\ by_pointer W = false
  end.
Proof.
  induction m as [|i m IH]; intros U b W Ty; cbn [Hooks.follow]; [constructor|].
  destruct (W [] U b ltac:(constructor)) as [(l & L & Len & Ptrs) _]. cbn [SpecHooks.type_at] in Ty.
  destruct (nth_error (fields U) i) as [f|] eqn:F; [|congruence].
  assert (Li : (i < length l)%nat) by (rewrite Len; apply nth_error_Some; congruence).
  destruct (nth_error l i) as [q|] eqn:Q; [|apply nth_error_None in Q; lia].
  assert (FV : field_var b i = Some q) by (apply field_var_some; eauto). rewrite FV.
  destruct f as [e V|e V|]; [| |congruence].
  - assert (C : child U b i = Some (e, V, q)) by (unfold child; rewrite F, FV; reflexivity).
    specialize (IH V q (well_typed_child _ _ _ _ _ _ W C) Ty). destruct (follow V q m) as [[X [r|]]|].
    + apply part_cons. eauto.
    + destruct IH as [(p & j & Y & c & e' & l' & q' & E & P & H) B]. split; [|exact B]. exists (i :: p), j, Y, c, e', l', q'. split; [cbn; congruence|]. split; [apply part_cons; eauto|exact H].
    + destruct IH as [(p & j & s & Y & c & e' & Wt & l' & q' & E & N & P & H)|(Wt & (p & j & Y & c & e' & l' & q' & E & P & H) & B)].
      * left. exists (i :: p), j, s, Y, c, e', Wt, l', q'. split; [cbn; congruence|]. split; [exact N|]. split; [apply part_cons; eauto|exact H].
      * right. exists Wt. split; [|exact B]. exists (i :: p), j, Y, c, e', l', q'. split; [cbn; congruence|]. split; [apply part_cons; eauto|exact H].
  - destruct (Ptrs i e V q F Q) as [r R]. rewrite R. destruct r as [c|].
    + assert (C : child U b i = Some (e, V, c)) by (unfold child; rewrite F, FV, R; reflexivity).
      specialize (IH V c (well_typed_child _ _ _ _ _ _ W C) Ty). destruct (follow V c m) as [[X [r|]]|].
      * apply part_cons. eauto.
      * destruct IH as [(p & j & Y & c' & e' & l' & q' & E & P & H) B]. split; [|exact B]. exists (i :: p), j, Y, c', e', l', q'. split; [cbn; congruence|]. split; [apply part_cons; eauto|exact H].
      * destruct IH as [(p & j & s & Y & c' & e' & Wt & l' & q' & E & N & P & H)|(Wt & (p & j & Y & c' & e' & l' & q' & E & P & H) & B)].
        -- left. exists (i :: p), j, s, Y, c', e', Wt, l', q'. split; [cbn; congruence|]. split; [exact N|]. split; [apply part_cons; eauto|exact H].
        -- right. exists Wt. split; [|exact B]. exists (i :: p), j, Y, c', e', l', q'. split; [cbn; congruence|]. split; [apply part_cons; eauto|exact H].
    + destruct m as [|k m].
      * assert (N : nil_at_end U b [i] V).
        { exists [], i, U, b, e, l, q. repeat split; try assumption. constructor. }
        destruct (by_pointer V) eqn:B; [auto|]. right. exists V. auto.
      * left. exists [], i, (k :: m), U, b, e, V, l, q. repeat split; try assumption; try discriminate. constructor.
Qed.

(** A nil pointer on the way is not a part. *)
Lemma nil_no_part V c i e W l q s X x : nth_error (fields V) i = Some (EmbeddedPtr e W) ->
  nth_error vars c = Some (SStruct l) -> nth_error l i = Some q -> nth_error vars q = Some (SPointer None) ->
  ~ part V c (i :: s) X x.
Proof.
  intros F L Q N P. apply part_cons in P as (e' & U & b & C & _). unfold child in C. rewrite F in C.
  assert (G : field_var c i = Some q) by (apply field_var_some; eauto). rewrite G, N in C. discriminate.
Qed.
Lemma before_end_no_part U b m X x : nil_before_end U b m -> ~ part U b m X x.
Proof.
  intros (p & i & s & V & c & e & W & l & q & -> & _ & P & F & L & Q & N) H. apply part_app in H as (Y & y & H1 & H2).
  destruct (part_det _ _ _ _ _ _ _ P H1) as [<- <-]. exact (nil_no_part _ _ _ _ _ _ _ _ _ _ F L Q N H2).
Qed.
Lemma at_end_no_part U b m W X x : nil_at_end U b m W -> ~ part U b m X x.
Proof.
  intros (p & i & V & c & e & l & q & -> & P & F & L & Q & N) H. apply part_app in H as (Y & y & H1 & H2).
  destruct (part_det _ _ _ _ _ _ _ P H1) as [<- <-]. exact (nil_no_part _ _ _ _ _ _ _ _ _ _ F L Q N H2).
Qed.
Lemma at_end_det U b m V W : nil_at_end U b m V -> nil_at_end U b m W -> V = W.
Proof.
  intros (p & i & X & c & e & l & q & E & P & F & _) (p' & i' & X' & c' & e' & l' & q' & E' & P' & F' & _). subst m.
  apply app_inj_tail in E' as [<- <-]. destruct (part_det _ _ _ _ _ _ _ P P') as [<- <-]. congruence.
Qed.
Lemma before_at_end U b m V : nil_before_end U b m -> ~ nil_at_end U b m V.
Proof.
  intros (p & i & s & X & c & e & W & l & q & E & Ns & P & F & L & Q & N) (p' & i' & X' & c' & e' & l' & q' & E' & P' & F' & _). subst m.
  destruct s as [|z s] using rev_ind; [congruence|]. clear IHs.
  replace (p ++ i :: s ++ [z]) with ((p ++ i :: s) ++ [z]) in E' by (rewrite <- app_assoc; reflexivity).
  apply app_inj_tail in E' as [<- <-]. apply part_app in P' as (Y & y & P1 & P2).
  destruct (part_det _ _ _ _ _ _ _ P P1) as [<- <-]. exact (nil_no_part _ _ _ _ _ _ _ _ _ _ F L Q N P2).
Qed.

(** ** Order *)

Lemma before_irrefl p : ~ before p p.
Proof. induction p as [|i p IH]; intros H; inversion H; subst; [lia|auto]. Qed.
Lemma before_trans p q r : before p q -> before q r -> before p r.
Proof.
  revert q r. induction p as [|i p IH]; intros q r H1 H2; inversion H1; subst.
  - inversion H2.
  - inversion H2; subst; [constructor|apply before_field; lia|apply before_field; lia].
  - inversion H2; subst; [constructor|apply before_field; lia|apply before_deep; eapply IH; eassumption].
Qed.

(** ** The whole run *)

(** The run [r] for the struct at path [at_] of the whole. *)
Definition good (T : nat) (a : addr) (ro : bool) (at_ : list nat) (from : list nat -> Prop) (r : hook_run) : Prop :=
  exists ps,
    StronglySorted before ps /\ Forall from ps /\
    Forall2 (fun p c => ~ fails T a ro p /\ exists c', is_call T a p c' /\ c = {| hc_path := at_ ++ hc_path c'; hc_type := hc_type c'; hc_recv := hc_recv c' |}) ps (hr_calls r) /\
    if hr_panic r then exists p, from p /\ fails T a ro p /\ hooked T a p /\ forall q, from q -> hooked T a q -> (In q ps <-> before q p)
    else forall q, from q -> hooked T a q -> In q ps.

Definition from_field (i : nat) (p : list nat) : Prop := match p with [] => False | j :: _ => (i <= j)%nat end.

Lemma map_cons_sorted i ps : StronglySorted before ps -> StronglySorted before (map (cons i) ps).
Proof.
  induction 1 as [|p ps S IH F]; cbn; constructor; [exact IH|]. apply Forall_map. eapply Forall_impl; [|exact F]. intros q H. apply before_deep, H.
Qed.
Lemma sorted_app ps qs : StronglySorted before ps -> StronglySorted before qs -> (forall p q, In p ps -> In q qs -> before p q) -> StronglySorted before (ps ++ qs).
Proof.
  induction 1 as [|p ps S IH F]; intros Sq H; [exact Sq|]. cbn. constructor.
  - apply IH; [exact Sq|]. intros x y Ix Iy. apply H; [right; exact Ix|exact Iy].
  - apply Forall_app. split; [exact F|]. apply Forall_forall. intros y Iy. apply H; [left; reflexivity|exact Iy].
Qed.

Lemma is_call_cons T a i e U b p c : child T a i = Some (e, U, b) -> is_call U b p c ->
  is_call T a (i :: p) {| hc_path := i :: hc_path c; hc_type := hc_type c; hc_recv := hc_recv c |}.
Proof.
  intros C (V & d & m & P & M & E & R). exists V, d, m. split; [apply part_cons; eauto|]. split; [exact M|]. cbn. split; [congruence|exact R].
Qed.

Lemma lift_calls T a i e U b ro at_ ps cs : child T a i = Some (e, U, b) ->
  Forall2 (fun p c => ~ fails U b (negb e) p /\ exists c', is_call U b p c' /\ c = {| hc_path := (at_ ++ [i]) ++ hc_path c'; hc_type := hc_type c'; hc_recv := hc_recv c' |}) ps cs ->
  Forall2 (fun p c => ~ fails T a ro p /\ exists c', is_call T a p c' /\ c = {| hc_path := at_ ++ hc_path c'; hc_type := hc_type c'; hc_recv := hc_recv c' |}) (map (cons i) ps) cs.
Proof.
  intros C. induction 1 as [|p c ps cs [N (c' & I & E)] F IH]; cbn; constructor; [|exact IH].
  split; [rewrite (fails_cons _ _ _ _ _ _ _ _ C); exact N|].
  exists {| hc_path := i :: hc_path c'; hc_type := hc_type c'; hc_recv := hc_recv c' |}. split; [eapply is_call_cons; eassumption|].
  subst c. cbn. rewrite <- app_assoc. reflexivity.
Qed.

(** One embedded part, and then the fields behind it. *)
Lemma good_child T a i e U b ro at_ r : child T a i = Some (e, U, b) ->
  good U b (negb e) (at_ ++ [i]) (fun _ => True) r -> hr_panic r = true -> good T a ro at_ (from_field i) r.
Proof.
  intros C (ps & S & F & Cs & X) Pn. rewrite Pn in X. destruct X as (p & _ & Fp & Hp & Only).
  exists (map (cons i) ps). split; [apply map_cons_sorted, S|]. split; [apply Forall_map; eapply Forall_impl; [|exact F]; intros q _; cbn; lia|].
  split; [eapply lift_calls; eassumption|]. rewrite Pn. exists (i :: p). split; [cbn; lia|]. split; [apply (fails_cons _ _ _ _ _ _ _ _ C), Fp|].
  split; [apply hooked_cons; eauto|]. intros q Fq Hq. destruct q as [|j q]; [destruct Fq|]. cbn in Fq. split.
  - intros I. apply in_map_iff in I as (q' & E & I). injection E as -> ->. apply hooked_cons in Hq as (e' & U' & b' & C' & Hq). rewrite C in C'. injection C' as <- <- <-.
    apply before_deep, Only; auto.
  - intros B. inversion B; subst; [lia|]. apply hooked_cons in Hq as (e' & U' & b' & C' & Hq). rewrite C in C'. injection C' as <- <- <-.
    apply in_map, Only; auto.
Qed.

Lemma good_next T a i ro at_ r r' :
  (match child T a i with
   | Some (e, U, b) => good U b (negb e) (at_ ++ [i]) (fun _ => True) r
   | None => r = hook_none
   end) -> hr_panic r = false -> good T a ro at_ (from_field (S i)) r' -> good T a ro at_ (from_field i) (hook_then r r').
Proof.
  intros G Pn (ps' & S' & F' & Cs' & X'). unfold hook_then. rewrite Pn.
  assert (exists ps, StronglySorted before ps /\ 
    Forall2 (fun p c => ~ fails T a ro p /\ exists c', is_call T a p c' /\ c = {| hc_path := at_ ++ hc_path c'; hc_type := hc_type c'; hc_recv := hc_recv c' |}) ps (hr_calls r) /\
    Forall (fun p => exists q, p = i :: q) ps /\ forall q, hooked T a (i :: q) -> In (i :: q) ps) as (ps & S & Cs & F & A).
  { destruct (child T a i) as [[[e U] b]|] eqn:C.
    - destruct G as (ps & S & F & Cs & X). rewrite Pn in X. exists (map (cons i) ps). split; [apply map_cons_sorted, S|]. split; [eapply lift_calls; eassumption|].
      split; [apply Forall_map; apply Forall_forall; eauto|]. intros q H. apply hooked_cons in H as (e' & U' & b' & C' & H). rewrite C in C'. injection C' as <- <- <-. apply in_map, X; auto.
    - subst r. exists []. split; [constructor|]. split; [constructor|]. split; [constructor|]. intros q H. apply hooked_cons in H as (e' & U' & b' & C' & H). congruence. }
  rewrite Forall_forall in F. rewrite Forall_forall in F'.
  exists (ps ++ ps'). split.
  { apply sorted_app; [exact S|exact S'|]. intros p q Ip Iq. destruct (F p Ip) as [x ->]. specialize (F' q Iq). destruct q as [|j q]; [destruct F'|]. cbn in F'. apply before_field. lia. }
  split. { apply Forall_app. split; apply Forall_forall; [intros p Ip; destruct (F p Ip) as [x ->]; cbn; lia|]. intros q Iq. specialize (F' q Iq). destruct q as [|j q]; [destruct F'|]. cbn in *. lia. }
  cbn [hr_calls hr_panic]. split; [apply Forall2_app; assumption|].
  destruct (hr_panic r').
  - destruct X' as (p & Fp & Fa & Hp & Only). exists p. split; [destruct p; [destruct Fp|cbn in *; lia]|]. split; [exact Fa|]. split; [exact Hp|].
    intros q Fq Hq. destruct q as [|j q]; [destruct Fq|]. destruct p as [|k p]; [destruct Fp|]. cbn in Fq, Fp. destruct (Nat.eq_dec i j) as [<-|Nj].
    + split; [intros _; apply before_field; lia|]. intros _. apply in_or_app. left. apply A, Hq.
    + rewrite in_app_iff, (Only (j :: q)) by (cbn; auto; lia). split; [|auto]. intros [I|I]; [|exact I]. destruct (F _ I) as [x E]. congruence.
  - intros q Fq Hq. destruct q as [|j q]; [destruct Fq|]. cbn in Fq. destruct (Nat.eq_dec i j) as [<-|Nj]; apply in_or_app; [left; apply A, Hq|right; apply X'; [cbn; lia|exact Hq]].
Qed.

Lemma good_end T a ro at_ i : (forall j, (i <= j)%nat -> nth_error (fields T) j = None) -> good T a ro at_ (from_field i) hook_none.
Proof.
  intros N. exists []. repeat split; try constructor. cbn. intros q Fq Hq. destruct q as [|j q]; [destruct Fq|]. cbn in Fq.
  apply hooked_cons in Hq as (e & U & b & C & _). unfold child in C. rewrite (N j Fq) in C. discriminate.
Qed.

(** The struct's own method, at last. *)
Lemma good_own T a ro at_ r : well_typed T a -> good T a ro at_ (from_field O) r ->
  good T a ro at_ (fun _ => True) (hook_then r (call_own at_ ro T a)).
Proof.
  intros W (ps & S & F & Cs & X). unfold hook_then. destruct (hr_panic r) eqn:Pn.
  - destruct X as (p & Fp & Fa & Hp & Only). exists ps. split; [exact S|]. split; [apply Forall_forall; auto|]. split; [exact Cs|]. rewrite Pn.
    exists p. split; [exact Logic.I|]. split; [exact Fa|]. split; [exact Hp|]. intros q _ Hq. destruct q as [|j q]; [|apply Only; [cbn; lia|exact Hq]].
    rewrite Forall_forall in F. split; [intros I; destruct (F _ I)|]. intros B. inversion B.
  - assert (All : forall j q, hooked T a (j :: q) -> In (j :: q) ps) by (intros j q H; apply X; [cbn; lia|exact H]). clear X.
    assert (Fne : forall q, In q ps -> exists j q', q = j :: q').
    { intros q I. rewrite Forall_forall in F. specialize (F q I). destruct q; [destruct F|eauto]. }
    unfold Hooks.call_own. destruct (method T) as [m|] eqn:M.
    2:{ exists ps. cbn [hr_calls hr_panic hook_none]. rewrite app_nil_r. split; [exact S|]. split; [apply Forall_forall; auto|]. split; [exact Cs|].
        intros q _ Hq. destruct q as [|j q]; [|apply All, Hq]. destruct Hq as (U & b & m & P & M'). apply part_nil in P as [-> ->]. congruence. }
    assert (H0 : hooked T a []) by (exists T, a, m; split; [constructor|exact M]).
    assert (Panic : fails T a ro [] -> good T a ro at_ (fun _ => True) {| hr_calls := hr_calls r ++ []; hr_panic := true |}).
    { intros Fa. exists ps. cbn [hr_calls hr_panic]. rewrite app_nil_r. split; [exact S|]. split; [apply Forall_forall; auto|]. split; [exact Cs|].
      exists []. split; [exact Logic.I|]. split; [exact Fa|]. split; [exact H0|]. intros q _ Hq. destruct q as [|j q].
      - split; [intros I; destruct (Fne _ I) as (? & ? & ?); discriminate|intros B; inversion B].
      - split; [intros _; constructor|intros _; apply All, Hq]. }
    destruct ro eqn:Ro; [apply Panic; right; repeat split; congruence|].
    destruct (W [] T a ltac:(constructor)) as [_ Ty]. specialize (Ty m M). pose proof (follow_ok m T a W Ty) as Fo.
    destruct (follow T a m) as [[U rc]|].
    + exists (ps ++ [[]]). cbn [hr_calls hr_panic]. split; [apply sorted_app; [exact S|constructor; constructor|]; intros p q Ip [<-|[]]; destruct (Fne p Ip) as (j & q' & ->); constructor|].
      split; [apply Forall_forall; auto|]. split.
      * apply Forall2_app; [exact Cs|]. constructor; [|constructor]. split.
        -- intros [(U' & b' & m' & P & M' & H)|(_ & Q & _)]; [|discriminate]. apply part_nil in P as [-> ->]. rewrite M in M'. injection M' as <-. destruct H as [H|[H|(Wt & H & B)]].
           ++ exact (hidden_nil _ H).
           ++ destruct rc as [rc|]; [exact (before_end_no_part _ _ _ _ _ H Fo)|exact (before_at_end _ _ _ _ H (proj1 Fo))].
           ++ destruct rc as [rc|]; [exact (at_end_no_part _ _ _ _ _ _ H Fo)|]. destruct Fo as [Fo B']. rewrite (at_end_det _ _ _ _ _ H Fo) in B. congruence.
        -- exists {| hc_path := m; hc_type := U; hc_recv := rc |}. split; [|reflexivity]. exists T, a, m. split; [constructor|]. split; [exact M|]. split; [reflexivity|]. cbn. destruct rc; [exact Fo|apply Fo].
      * intros q _ Hq. apply in_or_app. destruct q as [|j q]; [right; left; reflexivity|left; apply All, Hq].
    + apply Panic. left. exists T, a, m. split; [constructor|]. auto.
Qed.

Lemma call_after_good fuel : forall at_ ro T a r, well_typed T a -> call_after fuel at_ ro T a = Some r -> good T a ro at_ (fun _ => True) r.
Proof.
  induction fuel as [|n IH]; intros at_ ro T a r W E; [discriminate|]. cbn [Hooks.call_after] in E.
  match type of E with match ?loop O (fields T) with _ => _ end = _ =>
    assert (L : forall k i fs r', (i + length fs = length (fields T))%nat -> length fs = k -> fs = skipn i (fields T) -> loop i fs = Some r' -> good T a ro at_ (from_field i) r') end.
  { induction k as [|k IHk]; intros i fs r' Len Lk Sk El.
    - destruct fs; [|discriminate]. injection El as <-. apply good_end. intros j Lj. apply nth_error_None. cbn in Len. lia.
    - destruct fs as [|f fs]; [discriminate|]. cbn [length] in Len, Lk.
      assert (Fi : nth_error (fields T) i = Some f).
      { rewrite <- (firstn_skipn i (fields T)), <- Sk, nth_error_app2; rewrite firstn_length_le by lia; [|lia]. rewrite Nat.sub_diag. reflexivity. }
      assert (Sk' : fs = skipn (S i) (fields T)).
      { rewrite <- (firstn_skipn i (fields T)), <- Sk. rewrite skipn_app, firstn_length_le by lia. rewrite (skipn_all2 (firstn i (fields T))) by (rewrite firstn_length_le; lia).
        replace (S i - i)%nat with 1%nat by lia. reflexivity. }
      match type of El with match ?here with _ => _ end = _ => assert (He : here = match child T a i with Some (e, U, b) => call_after n (at_ ++ [i]) (negb e) U b | None => Some hook_none end) end.
      { unfold child. rewrite Fi. destruct f as [e U|e U|]; [destruct (field_var a i); reflexivity| |reflexivity].
        destruct (field_var a i) as [q|]; [|reflexivity]. destruct (nth_error vars q) as [[|[b|]|]|]; reflexivity. }
      rewrite He in El. clear He.
      assert (G : forall r0, match child T a i with Some (e, U, b) => call_after n (at_ ++ [i]) (negb e) U b | None => Some hook_none end = Some r0 ->
        match child T a i with Some (e, U, b) => good U b (negb e) (at_ ++ [i]) (fun _ => True) r0 | None => r0 = hook_none end).
      { intros r0 E0. destruct (child T a i) as [[[e U] b]|] eqn:C; [|congruence]. eapply IH; [eapply well_typed_child; eassumption|exact E0]. }
      destruct (match child T a i with Some (e, U, b) => call_after n (at_ ++ [i]) (negb e) U b | None => Some hook_none end) as [r0|]; [|discriminate].
      specialize (G r0 eq_refl). destruct (hr_panic r0) eqn:Pn.
      + injection El as <-. destruct (child T a i) as [[[e U] b]|] eqn:C; [|subst r0; discriminate]. eapply good_child; eassumption.
      + match type of El with match ?x with _ => _ end = _ => destruct x as [r1|] eqn:E1; [|discriminate] end. injection El as <-.
        eapply good_next; [exact G|exact Pn|]. eapply IHk; [| |exact Sk'|exact E1]; lia. }
  match type of E with match ?x with _ => _ end = _ => destruct x as [r0|] eqn:E0; [|discriminate] end. injection E as <-.
  apply good_own; [exact W|]. eapply L; [| |reflexivity|exact E0]; reflexivity.
Qed.
End Facts.
